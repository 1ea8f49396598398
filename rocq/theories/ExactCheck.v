(** A check for rules whose choices are decided by the next [k] characters.

    Nothing here is taken from the code: it is a computation which, where it answers [true],
    spares proving [determinate] (SpecExact.v) by hand.  Texts are described by patterns: a
    list of sets of characters, one for each of the first [k] characters, and whether more may
    follow.  The check works on a table with, for each rule, the patterns of its words and of
    what may follow it; [ahead_table] computes one, [ahead_checks] verifies it. *)
From Coq Require Import String List NArith Arith Bool Lia.
From Verif Require Import Base Ident Ast Graph SpecText SpecSyntax TextFacts SyntaxFacts SpecParse SpecEvents SpecTotal SpecExact ParseFacts EvFacts LangFacts TotalFacts LLCheck ExactFacts.
Import ListNotations.
Open Scope nat_scope.

(** ** Sets of characters *)
Definition less1 (x b : N * N) : ranges :=
  if apart1 x b then [x]
  else (if N.ltb (fst x) (fst b) then [(fst x, N.pred (fst b))] else []) ++ (if N.ltb (snd b) (snd x) then [(N.succ (snd b), snd x)] else []).
Definition minus (a b : ranges) : ranges := fold_left (fun a y => flat_map (fun x => less1 x y) a) b a.
Lemma less1_has : forall x b c, has [x] c = true -> has [b] c = false -> has (less1 x b) c = true.
Proof.
  intros [x1 x2] [b1 b2] c Hx Hb. unfold less1. destruct (apart1 (x1, x2) (b1, b2)); [exact Hx|].
  unfold has in *. cbn in Hx, Hb. rewrite orb_false_r in Hx, Hb. apply andb_prop in Hx as (X1 & X2). apply N.leb_le in X1, X2.
  rewrite existsb_app. cbn [fst snd]. apply andb_false_iff in Hb as [Hb|Hb]; apply N.leb_gt in Hb; apply orb_true_iff.
  - left. destruct (N.ltb_spec x1 b1); [|lia]. cbn. rewrite orb_false_r. apply andb_true_intro. split; apply N.leb_le; lia.
  - right. destruct (N.ltb_spec b2 x2); [|lia]. cbn. rewrite orb_false_r. apply andb_true_intro. split; apply N.leb_le; lia.
Qed.
Lemma minus_has : forall b a c, has a c = true -> has b c = false -> has (minus a b) c = true.
Proof.
  induction b as [|y b IH]; intros a c Ha Hb; [exact Ha|]. change (y :: b) with ([y] ++ b) in Hb. rewrite has_app in Hb. apply orb_false_iff in Hb as (H1 & H2).
  cbn. apply IH; [|exact H2]. unfold has in Ha. apply existsb_exists in Ha as (x & Hx & Ex).
  assert (Hl : has (less1 x y) c = true) by (apply less1_has; [unfold has; cbn; rewrite Ex; reflexivity|exact H1]).
  unfold has in *. apply existsb_exists in Hl as (z & Hz & Ez). apply existsb_exists. exists z. split; [|exact Ez]. apply in_flat_map. exists x. auto.
Qed.

(** ** Patterns *)
Definition pat := (list ranges * bool)%type.
Fixpoint eqs {A} (eq : A -> A -> bool) (a b : list A) : bool :=
  match a, b with [], [] => true | x :: a, y :: b => eq x y && eqs eq a b | _, _ => false end.
Definition pat_eqb (a b : pat) : bool :=
  eqs (eqs (fun x y => N.eqb (fst x) (fst y) && N.eqb (snd x) (snd y))) (fst a) (fst b) && Bool.eqb (snd a) (snd b).
Lemma eqs_eq : forall A (eq : A -> A -> bool), (forall x y, eq x y = true -> x = y) -> forall a b, eqs eq a b = true -> a = b.
Proof.
  intros A eq H a. induction a as [|x a IH]; intros [|y b] E; try discriminate; [reflexivity|]. cbn in E. apply andb_prop in E as (E1 & E2). rewrite (H _ _ E1), (IH _ E2). reflexivity.
Qed.
Lemma pat_eqb_eq : forall a b, pat_eqb a b = true -> a = b.
Proof.
  intros [a m] [b m'] H. apply andb_prop in H as (H1 & H2). apply Bool.eqb_prop in H2. cbn in H2. subst m'. f_equal. revert H1. apply eqs_eq, eqs_eq.
  intros [x1 x2] [y1 y2] E. apply andb_prop in E as (E1 & E2). apply N.eqb_eq in E1, E2. cbn in *. congruence.
Qed.
Definition nub (l : list pat) : list pat := fold_right (fun x l => if existsb (pat_eqb x) l then l else x :: l) [] l.
Lemma in_nub : forall x l, In x l -> In x (nub l).
Proof.
  intros x l. induction l as [|y l IH]; [contradiction|]. intros [->|H]; cbn; destruct (existsb _ _) eqn:E.
  - apply existsb_exists in E as (z & Hz & Ez). apply pat_eqb_eq in Ez. subst z. exact Hz.
  - left. reflexivity.
  - exact (IH H).
  - right. exact (IH H).
Qed.
Definition subset (a b : list pat) : bool := forallb (fun x => existsb (pat_eqb x) b) a.
Lemma in_subset : forall a b x, subset a b = true -> In x a -> In x b.
Proof.
  intros a b x H Hx. unfold subset in H. rewrite forallb_forall in H. specialize (H x Hx). apply existsb_exists in H as (y & Hy & E). apply pat_eqb_eq in E. subst y. exact Hy.
Qed.
Fixpoint suits (p : list ranges) (more : bool) (w : str) : Prop :=
  match p, w with
  | [], [] => True
  | [], _ :: _ => more = true
  | r :: p, c :: w => has r c = true /\ suits p more w
  | _ :: _, [] => False
  end.
Definition covered (l : list pat) (w : str) : Prop := exists p m, In (p, m) l /\ suits p m w.
Lemma suits_cut : forall p q m w, suits (p ++ q) m w -> suits p true w.
Proof.
  induction p as [|r p IH]; intros q m w H; cbn in *; [destruct w; reflexivity|]. destruct w as [|c w]; [exact H|]. split; [exact (proj1 H)|]. exact (IH _ _ _ (proj2 H)).
Qed.
Lemma suits_more : forall p m w v, suits p m w -> suits p true (w ++ v).
Proof.
  induction p as [|r p IH]; intros m w v H; cbn in *; [destruct (w ++ v); reflexivity|]. destruct w as [|c w]; [contradiction|]. cbn. split; [exact (proj1 H)|]. exact (IH _ _ _ (proj2 H)).
Qed.
Lemma suits_cat : forall p q m w v, suits p false w -> suits q m v -> suits (p ++ q) m (w ++ v).
Proof.
  induction p as [|r p IH]; intros q m w v H K; cbn in *; [destruct w; [exact K|discriminate]|]. destruct w as [|c w]; [contradiction|]. cbn. split; [exact (proj1 H)|]. exact (IH _ _ _ _ (proj2 H) K).
Qed.
(** No word of the first pattern begins a text of the second. *)
Fixpoint clash (p q : list ranges) (m : bool) : bool :=
  match p, q with
  | [], _ => false
  | _ :: _, [] => negb m
  | a :: p, b :: q => apart a b || clash p q m
  end.
Lemma clash_suits : forall p q m mp u v, clash p q m = true -> suits p mp u -> suits q m (u ++ v) -> False.
Proof.
  induction p as [|a p IH]; intros [|b q] m mp u v H Hp Hq; cbn in H; try discriminate; destruct u as [|c u]; try contradiction; cbn in Hp, Hq.
  - rewrite Hq in H. discriminate.
  - apply orb_prop in H as [H|H]; [exact (apart_has _ _ _ H (proj1 Hp) (proj1 Hq))|]. exact (IH _ _ _ _ _ H (proj2 Hp) (proj2 Hq)).
Qed.
Definition clashes (a b : list pat) : bool := forallb (fun x => forallb (fun y => clash (fst x) (fst y) (snd y)) b) a.
Lemma clashes_covered : forall a b u v, clashes a b = true -> covered a u -> covered b (u ++ v) -> False.
Proof.
  intros a b u v H (p & m & Hp & Sp) (q & m' & Hq & Sq). unfold clashes in H. rewrite forallb_forall in H. specialize (H _ Hp). rewrite forallb_forall in H. specialize (H _ Hq).
  exact (clash_suits _ _ _ _ _ _ H Sp Sq).
Qed.
(** Some pattern begins with nothing. *)
Definition nullable (l : list pat) : bool := existsb (fun x => match fst x with [] => true | _ => false end) l.
Lemma nullable_in : forall l, nullable l = true <-> exists m, In ([], m) l.
Proof.
  intros l. unfold nullable. rewrite existsb_exists. split.
  - intros ([[|r p] m] & Hx & E); [eauto|discriminate].
  - intros (m & H). exists ([], m). auto.
Qed.

Section Ahead.
Variable k : nat.
Definition cut (x : pat) : pat := if Nat.leb (length (fst x)) k then x else (firstn k (fst x), true).
Definition cat (x y : pat) : pat := if snd x then x else cut (fst x ++ fst y, snd y).
Definition cats (a b : list pat) : list pat := nub (flat_map (fun x => map (cat x) b) a).
Fixpoint times (j : nat) (n : N) (h : list pat) : list pat :=
  if N.eqb n 0 then [([], false)] else match j with 0 => [([], true)] | S j => cats h (times j (N.pred n) h) end.
Fixpoint reps (j : nat) (h : list pat) : list pat :=
  match j with 0 => [([], true)] | S j => ([], false) :: cats h (reps j h) end.
Lemma cut_suits : forall p m w, suits p m w -> suits (fst (cut (p, m))) (snd (cut (p, m))) w.
Proof.
  intros p m w H. unfold cut. cbn [fst snd]. destruct (Nat.leb (length p) k); [exact H|]. cbn. rewrite <- (firstn_skipn k p) in H. exact (suits_cut _ _ _ _ H).
Qed.
Lemma cats_covered : forall a b w v, covered a w -> covered b v -> covered (cats a b) (w ++ v).
Proof.
  intros a b w v (p & m & Hp & Sp) (q & m' & Hq & Sq). set (z := cat (p, m) (q, m')). exists (fst z), (snd z). split.
  - rewrite <- surjective_pairing. apply in_nub, in_flat_map. exists (p, m). split; [exact Hp|]. apply in_map. exact Hq.
  - unfold z, cat. cbn [fst snd]. destruct m; [eapply suits_more; exact Sp|]. apply cut_suits, suits_cat; assumption.
Qed.
Lemma cats_nullable : forall a b, nullable a = true -> nullable b = true -> nullable (cats a b) = true.
Proof.
  intros a b Ha Hb. apply nullable_in in Ha as (m & Ha), Hb as (m' & Hb). apply nullable_in.
  assert (E : cat ([], m) ([], m') = ([], m || m')) by (unfold cat, cut; destruct m; reflexivity). exists (m || m'). rewrite <- E.
  apply in_nub, in_flat_map. exists ([], m). split; [exact Ha|]. apply in_map. exact Hb.
Qed.
Lemma nil_covered : forall l, In ([], false) l -> covered l [].
Proof. intros l H. exists [], false. split; [exact H|exact I]. Qed.
Lemma any_covered : forall w, covered [([], true)] w.
Proof. intros w. exists [], true. split; [left; reflexivity|]. destruct w; cbn; auto. Qed.
Lemma nub_covered : forall l w, covered l w -> covered (nub l) w.
Proof. intros l w (p & m & H & S). exists p, m. split; [apply in_nub; exact H|exact S]. Qed.
Lemma times_many : forall j n i h, (N.of_nat j < n)%N -> (N.of_nat j < i)%N -> times j n h = times j i h.
Proof.
  induction j as [|j IH]; intros n i h Hn Hi; cbn [times]; destruct (N.eqb_spec n 0); destruct (N.eqb_spec i 0); try lia; [reflexivity|]. f_equal. apply IH; lia.
Qed.
Lemma times_nullable : forall j n h, nullable h = true -> nullable (times j n h) = true.
Proof.
  induction j as [|j IH]; intros n h H; cbn [times]; destruct (N.eqb n 0); try reflexivity. apply cats_nullable; auto.
Qed.
Lemma reps_nullable : forall j h, nullable (reps j h) = true.
Proof. intros [|j] h; reflexivity. Qed.

(** ** Tables *)
Record hinfo := HInfo { h_heads : list pat; h_next : list pat; h_rank : nat; h_plain : bool }.
(** The special sequences that are understood, as in LLCheck.v. *)
Variable class : str -> option (ranges * bool).
Section Table.
Variable tbl : list (str * hinfo).
Definition hentry (id : str) : option hinfo :=
  match find (fun e => str_eqb (fst e) (keyed id)) tbl with Some e => Some (snd e) | None => None end.
(** Characters that are words of an exception. *)
Fixpoint ones_p (p : primary) : ranges :=
  match p with
  | PTerminal _ [c] => [(c, c)]
  | PSpecial _ c => match class c with Some (rs, _) => rs | None => [] end
  | PGrouped _ d => flat_map (fun ts => match ts with [t] => if N.eqb (f_rep (t_factor t)) 1 then ones_p (f_prim (t_factor t)) else [] | _ => [] end) d
  | _ => []
  end.
Definition ones_f (f : factor) : ranges := if N.eqb (f_rep f) 1 then ones_p (f_prim f) else [].
Definition without (e : option factor) (x : pat) : pat :=
  match e, x with Some e, ([r], false) => ([minus r (ones_f e)], false) | _, _ => x end.
Fixpoint heads_p (p : primary) : list pat :=
  let heads_f (f : factor_ primary) := times k (f_rep f) (heads_p (f_prim f)) in
  let heads_t (t : term_ primary) := nub (map (without (t_exc t)) (heads_f (t_factor t))) in
  let heads_s := fold_right (fun t rest => cats (heads_t t) rest) [([], false)] in
  let heads_d (d : list (list (term_ primary))) := nub (flat_map heads_s d) in
  match p with
  | PTerminal _ w => [cut (map (fun c => [(c, c)]) w, false)]
  | PEmpty _ => [([], false)]
  | PSpecial _ c => match class c with Some (rs, many) => [([rs], many)] | None => [([], true)] end
  | PMeta _ id => match hentry id with Some i => h_heads i | None => [([], true)] end
  | POptional _ d => ([], false) :: heads_d d
  | PRepeated _ d => reps k (heads_d d)
  | PGrouped _ d => heads_d d
  end.
Definition heads_f (f : factor) : list pat := times k (f_rep f) (heads_p (f_prim f)).
Definition heads_t (t : term) : list pat := nub (map (without (t_exc t)) (heads_f (t_factor t))).
Definition heads_s (ts : list term) : list pat := fold_right (fun t rest => cats (heads_t t) rest) [([], false)] ts.
Definition heads_d (d : definition_list) : list pat := nub (flat_map heads_s d).
Definition heads (n : node) : list pat :=
  match n with NPrim p => heads_p p | NFactor f => heads_f f | NTerm t => heads_t t | NSeq ts => heads_s ts | NDefs d => heads_d d | _ => [([], true)] end.
(** The rules that may be tried before anything is read have ranks below [n]. *)
Fixpoint under_p (n : nat) (p : primary) : bool :=
  let under_t (t : term_ primary) := under_p n (f_prim (t_factor t)) && match t_exc t with Some e => under_p n (f_prim e) | None => true end in
  let under_s := fold_right (fun t rest => under_t t && (negb (nullable (heads_t t)) || rest)) true in
  match p with
  | PTerminal _ _ | PEmpty _ | PSpecial _ _ => true
  | PMeta _ id => match hentry id with Some i => Nat.ltb (h_rank i) n | None => false end
  | POptional _ d | PRepeated _ d | PGrouped _ d => forallb under_s d
  end.
Definition under_t (n : nat) (t : term) : bool := under_p n (f_prim (t_factor t)) && match t_exc t with Some e => under_p n (f_prim e) | None => true end.
Definition under_s (n : nat) (ts : list term) : bool := fold_right (fun t rest => under_t n t && (negb (nullable (heads_t t)) || rest)) true ts.
Definition under_d (n : nat) (d : definition_list) : bool := forallb (under_s n) d.
(** No exceptions are used. *)
Fixpoint plain_p (p : primary) : bool :=
  let plain_t (t : term_ primary) := match t_exc t with Some _ => false | None => plain_p (f_prim (t_factor t)) end in
  match p with
  | PMeta _ id => match hentry id with Some i => h_plain i | None => false end
  | POptional _ d | PRepeated _ d | PGrouped _ d => forallb (forallb plain_t) d
  | _ => true
  end.
Definition plain_t (t : term) : bool := match t_exc t with Some _ => false | None => plain_p (f_prim (t_factor t)) end.
Definition plain_s (ts : list term) : bool := forallb plain_t ts.
Definition plain_d (d : definition_list) : bool := forallb plain_s d.
(** The conditions on a construct that may be followed by the texts of [fs]. *)
Definition apart_ok (fs : list pat) : definition_list -> bool := fix go ds :=
  match ds with
  | [] => true
  | d :: ds => forallb (fun d' => clashes (heads_s d) (cats (heads_s d') fs)) ds && go ds
  end.
Definition stops (rs : ranges) (fs : list pat) : bool :=
  forallb (fun x => match fst x with [] => negb (snd x) | r :: _ => apart rs r end) fs.
Definition visible (h : list pat) : list pat := filter (fun x => match x with ([], false) => false | _ => true end) h.
Definition rounds (n : N) (h fs : list pat) : list pat :=
  nub (flat_map (fun i => cats (times k (N.of_nat i) h) fs) (seq 0 (S (N.to_nat (N.min (N.pred n) (N.of_nat (S k))))))).
Fixpoint safe_p (p : primary) (fs : list pat) : bool :=
  let safe_f (f : factor_ primary) (fs : list pat) := N.ltb (f_rep f) max_count && safe_p (f_prim f) (rounds (f_rep f) (heads_p (f_prim f)) fs) in
  let safe_t (t : term_ primary) (fs : list pat) :=
    safe_f (t_factor t) fs && match t_exc t with Some e => plain_p (f_prim e) && safe_f e [([], false)] | None => true end in
  let safe_s := fix go ts fs :=
    match ts with
    | [] => true
    | t :: ts => bare_ok t ts && safe_t t (cats (heads_s ts) fs) && go ts fs
    end in
  let safe_d (d : list (list (term_ primary))) fs := filled_d d && apart_ok fs d && forallb (fun ts => safe_s ts fs) d in
  match p with
  | PTerminal _ _ | PEmpty _ => true
  | PSpecial _ c => match class c with None => false | Some (rs, true) => stops rs fs | Some (_, false) => true end
  | PMeta _ id => match hentry id with None => false | Some i => subset fs (h_next i) end
  | POptional _ d => clashes (visible (heads_d d)) fs && safe_d d fs
  | PRepeated _ d => negb (nullable (heads_d d)) && clashes (heads_d d) fs && safe_d d (cats (reps k (heads_d d)) fs)
  | PGrouped _ d => safe_d d fs
  end.
Definition safe_f (f : factor) (fs : list pat) : bool := N.ltb (f_rep f) max_count && safe_p (f_prim f) (rounds (f_rep f) (heads_p (f_prim f)) fs).
Definition safe_t (t : term) (fs : list pat) : bool :=
  safe_f (t_factor t) fs && match t_exc t with Some e => plain_p (f_prim e) && safe_f e [([], false)] | None => true end.
Fixpoint safe_s (ts : list term) (fs : list pat) : bool :=
  match ts with
  | [] => true
  | t :: ts => bare_ok t ts && safe_t t (cats (heads_s ts) fs) && safe_s ts fs
  end.
Definition safe_d (d : definition_list) (fs : list pat) : bool := filled_d d && apart_ok fs d && forallb (fun ts => safe_s ts fs) d.
Definition safe (n : node) (fs : list pat) : bool :=
  match n with NPrim p => safe_p p fs | NFactor f => safe_f f fs | NTerm t => safe_t t fs | NSeq ts => safe_s ts fs | NDefs d => safe_d d fs | _ => false end.
Definition safe_rule (r : rule) : bool :=
  match hentry (r_id r) with
  | None => false
  | Some i => subset (heads_d (r_defs r)) (h_heads i) && safe_d (r_defs r) (h_next i) && under_d (h_rank i) (r_defs r) && implb (h_plain i) (plain_d (r_defs r))
  end.
Definition known (rules : list rule) : bool :=
  forallb (fun e => existsb (fun r => str_eqb (fst e) (keyed (r_id r))) rules) tbl.
Definition ahead_checks (rules : list rule) (start : str) : bool :=
  known rules && forallb safe_rule rules && match hentry start with Some i => existsb (pat_eqb ([], false)) (h_next i) | None => false end.

(** ** What follows from it *)
Variable rules : list rule.
Variable cfg : config.
Variable start : str.
Hypothesis Hcheck : ahead_checks rules start = true.
Hypothesis Hclass : forall l c rs many, class c = Some (rs, many) -> cfg l c = ScChars (has rs) (Some 1%N) (if many then None else Some 1%N).
Hypothesis Hfwd : no_forwarding cfg.
Notation lang := (lang cfg rules).
Notation xlang := (xlang rules cfg).
Notation construct := (construct rules).
Notation ahead := (ahead rules cfg start).
Lemma rule_safe : forall id r, names rules id r -> exists i, hentry id = Some i /\ hentry (r_id r) = Some i /\
  subset (heads_d (r_defs r)) (h_heads i) = true /\ safe_d (r_defs r) (h_next i) = true /\ under_d (h_rank i) (r_defs r) = true /\
  (h_plain i = true -> plain_d (r_defs r) = true).
Proof.
  intros id r H. assert (E : hentry id = hentry (r_id r)) by (unfold hentry; rewrite (proj1 (same_name_keyed _ _) (proj2 H)); reflexivity). rewrite E.
  unfold ahead_checks in Hcheck. apply andb_prop in Hcheck as (H1 & _). apply andb_prop in H1 as (_ & H1).
  rewrite forallb_forall in H1. specialize (H1 r (proj1 H)). unfold safe_rule in H1. destruct (hentry (r_id r)) as [i|]; [|discriminate]. exists i.
  apply andb_prop in H1 as (H1 & Hp). apply andb_prop in H1 as (H1 & Hu). apply andb_prop in H1 as (Hh & Hs).
  repeat split; auto. intros Ep. rewrite Ep in Hp. exact Hp.
Qed.
Lemma entry_known : forall id i, hentry id = Some i -> defined rules id.
Proof.
  intros id i H. unfold hentry in H. destruct (find _ tbl) as [e|] eqn:Ef; [|discriminate]. apply find_some in Ef as (Hin & He).
  unfold ahead_checks in Hcheck. apply andb_prop in Hcheck as (H1 & _). apply andb_prop in H1 as (H1 & _). unfold known in H1.
  rewrite forallb_forall in H1. specialize (H1 e Hin). apply existsb_exists in H1 as (r & Hr & Er). exists r. split; [exact Hr|].
  apply same_name_keyed. apply str_eqb_eq in He, Er. congruence.
Qed.
Lemma class_word : forall l c rs many s s' e w, class c = Some (rs, many) -> scanned (cfg l c) l s (SMatch s' e) -> goes s w s' ->
  w <> [] /\ Forall (fun x => has rs x = true) w /\ (many = false -> length w = 1).
Proof.
  intros l c rs many s s' e w Hc H Hg. rewrite (Hclass l c rs many Hc) in H. inversion H as [|pred mn mx def s0 w0 s0' Hrun Hshort| | | | |]; subst.
  destruct Hrun as (Hg0 & HF & Hm & _). rewrite (goes_word _ _ _ _ Hg Hg0). split; [|split; [exact HF|]].
  - intros ->. apply Hshort. exists 1%N. cbn. split; [reflexivity|lia].
  - intros ->. specialize (Hm 1%N eq_refl). destruct w0 as [|x [|y w0]]; cbn in Hm; [|reflexivity|lia]. exfalso. apply Hshort. exists 1%N. cbn. split; [reflexivity|lia].
Qed.

(** Words. *)
Lemma ones_word : forall p c, has (ones_p p) c = true -> lang (NPrim p) [c].
Proof.
  fix IH 1. intros p c H. destruct p as [l d|l d|l d|l id|l w|l s|l]; try discriminate.
  - apply lg_group. revert H. induction d as [|ts d IHd]; intros H; [discriminate|].
    change (has ((match ts with [t] => if N.eqb (f_rep (t_factor t)) 1 then ones_p (f_prim (t_factor t)) else [] | _ => [] end) ++ ones_p (PGrouped l d)) c = true) in H.
    rewrite has_app in H. apply orb_prop in H as [H|H].
    + clear IHd. destruct ts as [|[[n q] e] [|]]; try discriminate. cbn in H. destruct (N.eqb_spec n 1) as [->|]; [|discriminate].
      eapply lg_defs; [left; reflexivity|]. apply (lg_seq _ _ _ _ [c] []); [|apply lg_nil]. apply lg_term. apply (lg_times _ _ 0 q [c] []); [|apply lg_zero]. exact (IH q c H).
    + specialize (IHd H). inversion IHd; subst. eapply lg_defs; [right; eassumption|assumption].
  - cbn in H. destruct w as [|x [|y w]]; try discriminate. unfold has in H. cbn in H. rewrite orb_false_r in H. apply andb_prop in H as (H1 & H2).
    apply N.leb_le in H1, H2. replace c with x by lia. apply lg_terminal.
  - cbn in H. destruct (class s) as [[rs many]|] eqn:Ec; [|discriminate].
    eapply lg_special with (s := Pst [c] (loc_new [])) (s' := Pst [] (loc_push_str (loc_new []) [c])).
    + rewrite (Hclass l s rs many Ec). apply sn_chars with (w := [c]).
      * split; [apply goes_push; auto|]. split; [constructor; [exact H|constructor]|]. split; [|left; reflexivity]. intros m E. destruct many; [discriminate|]. injection E as <-. cbn. lia.
      * intros (m & E & L). injection E as <-. cbn in L. lia.
    + apply goes_push. auto.
Qed.
Lemma without_covered : forall e l w, (forall f, e = Some f -> ~ lang (NFactor f) w) -> covered l w -> covered (nub (map (without e) l)) w.
Proof.
  intros e l w He (p & m & Hp & Sp). set (z := without e (p, m)). exists (fst z), (snd z). split; [rewrite <- surjective_pairing; apply in_nub, in_map; exact Hp|].
  unfold z, without. destruct e as [f|]; [|exact Sp]. destruct p as [|r [|r2 p]]; try exact Sp. destruct m; [exact Sp|]. cbn [fst snd].
  cbn in Sp. destruct w as [|c w]; [contradiction|]. destruct Sp as (Sc & Sw). destruct w; [|discriminate]. cbn. split; [|exact I]. apply minus_has; [exact Sc|].
  destruct (has (ones_f f) c) eqn:E; [|reflexivity]. exfalso. apply (He f eq_refl). unfold ones_f in E. destruct f as [n q]. cbn in E. destruct (N.eqb_spec n 1) as [->|]; [|discriminate].
  apply (lg_times _ _ 0 q [c] []); [|apply lg_zero]. exact (ones_word _ _ E).
Qed.
Definition says (n : node) (w : str) : Prop :=
  match n with
  | NFactor f => forall j, covered (times j (f_rep f) (heads_p (f_prim f))) w
  | NPrim (PRepeated _ d) => forall j, covered (reps j (heads_d d)) w
  | _ => covered (heads n) w
  end.
Lemma says_covered : forall n w, says n w -> covered (heads n) w.
Proof. intros n w H. destruct n; try exact H; [exact (H k)|]. destruct p; try exact H. exact (H k). Qed.
Lemma single : forall w, suits (map (fun c : N => [(c, c)]) w) false w.
Proof. induction w as [|c w IH]; cbn; [exact I|]. split; [|exact IH]. unfold has. cbn. rewrite N.leb_refl. reflexivity. Qed.
Lemma xlang_says : forall n w, xlang n w -> says n w.
Proof.
  intros n w H. induction H.
  - cbn. set (z := cut (map (fun c => [(c, c)]) w, false)). exists (fst z), (snd z). split; [left; apply surjective_pairing|]. apply cut_suits, single.
  - apply nil_covered. left. reflexivity.
  - cbn. destruct (class c) as [[rs many]|] eqn:Ec; [|apply any_covered]. destruct (class_word _ _ _ _ _ _ _ _ Ec H H0) as (W1 & W2 & W3).
    exists [rs], many. split; [left; reflexivity|]. destruct w as [|x w]; [congruence|]. cbn. split; [exact (Forall_inv W2)|]. destruct w as [|y w]; [exact I|]. destruct many; [reflexivity|]. specialize (W3 eq_refl). discriminate.
  - destruct (rule_safe _ _ H) as (i & Hi & _ & Hh & _). cbn. rewrite Hi. destruct (says_covered _ _ IHxlang) as (p & m & Hp & Sp). exists p, m. split; [|exact Sp]. exact (in_subset _ _ _ Hh Hp).
  - apply nil_covered. left. reflexivity.
  - destruct (says_covered _ _ IHxlang) as (p & m & Hp & Sp). exists p, m. split; [right; exact Hp|exact Sp].
  - cbn. intros [|j]; [apply any_covered|]. apply nil_covered. left. reflexivity.
  - cbn [says] in *. intros [|j]; [apply any_covered|]. cbn [reps]. destruct (cats_covered _ _ _ _ IHxlang1 (IHxlang2 j)) as (p & m & Hp & Sp).
    exists p, m. split; [right; exact Hp|exact Sp].
  - exact (says_covered _ _ IHxlang).
  - cbn. intros [|j]; apply nil_covered; left; reflexivity.
  - cbn [says f_rep f_prim] in *. intros [|j]; cbn [times]; destruct (N.eqb_spec (N.succ n) 0); try lia; [apply any_covered|]. rewrite N.pred_succ. apply cats_covered; [exact (says_covered (NPrim p) _ IHxlang1)|exact (IHxlang2 j)].
  - cbn [says heads]. apply (without_covered None); [discriminate|]. exact (says_covered _ _ IHxlang).
  - cbn [says heads]. apply (without_covered (Some e)); [intros f0 E; injection E as <-; exact H0|]. exact (says_covered _ _ IHxlang).
  - apply nil_covered. left. reflexivity.
  - cbn [says heads heads_s fold_right] in *. apply cats_covered; assumption.
  - destruct (says_covered _ _ IHxlang) as (p & m & Hp & Sp). exists p, m. split; [|exact Sp]. apply in_nub, in_flat_map. exists d. auto.
Qed.
Lemma xlang_covered : forall n w, xlang n w -> covered (heads n) w.
Proof. intros n w H. apply says_covered, xlang_says, H. Qed.

(** The empty word, and what may match without reading. *)
Lemma nullable_sub : forall a b, subset a b = true -> nullable a = true -> nullable b = true.
Proof. intros a b H Ha. apply nullable_in in Ha as (m & Hm). apply nullable_in. exists m. exact (in_subset _ _ _ H Hm). Qed.
Lemma nullable_nub : forall l, nullable l = true -> nullable (nub l) = true.
Proof. intros l H. apply nullable_in in H as (m & Hm). apply nullable_in. exists m. apply in_nub. exact Hm. Qed.
Lemma nullable_without : forall e l, nullable l = true -> nullable (nub (map (without e) l)) = true.
Proof.
  intros e l H. apply nullable_nub. apply nullable_in in H as (m & Hm). apply nullable_in. exists m. apply in_map_iff. exists ([], m). split; [|exact Hm]. destruct e; reflexivity.
Qed.
Lemma nullable_d : forall ds d, In d ds -> nullable (heads_s d) = true -> nullable (heads_d ds) = true.
Proof.
  intros ds d Hd H. apply nullable_nub. apply nullable_in in H as (m & Hm). apply nullable_in. exists m. apply in_flat_map. exists d. auto.
Qed.
Lemma lang_nullable : forall n w, lang n w -> w = [] -> nullable (heads n) = true.
Proof.
  intros n w H. induction H; intros E; cbn [heads] in *; try reflexivity.
  - subst w. reflexivity.
  - cbn. destruct (class c) as [[rs many]|] eqn:Ec; [|reflexivity]. exfalso. exact (proj1 (class_word _ _ _ _ _ _ _ _ Ec H H0) E).
  - destruct (rule_safe _ _ H) as (i & Hi & _ & Hh & _). cbn. rewrite Hi. exact (nullable_sub _ _ Hh (IHlang E)).
  - apply reps_nullable.
  - apply reps_nullable.
  - exact (IHlang E).
  - unfold heads_f. destruct k; reflexivity.
  - apply app_eq_nil in E as (E & _). unfold heads_f. apply times_nullable. exact (IHlang1 E).
  - apply nullable_without. exact (IHlang E).
  - apply app_eq_nil in E as (E1 & E2). apply cats_nullable; auto.
  - eapply nullable_d; eauto.
Qed.
Lemma construct_safe : forall n, construct n -> exists fs, safe n fs = true.
Proof.
  intros n (r & Hr & H). induction H.
  - destruct (rule_safe (r_id r) r) as (i & _ & _ & _ & Hs & _); [split; [exact Hr|apply same_name_keyed; reflexivity]|]. eauto.
  - destruct (rule_safe _ _ H0) as (i & _ & _ & _ & Hs & _). eauto.
  - destruct IHuses as (fs & Hs). cbn [safe] in *. unfold safe_d in Hs. apply andb_prop in Hs as (_ & Hs). rewrite forallb_forall in Hs. exists fs. exact (Hs d H0).
  - destruct IHuses as (fs & Hs). cbn [safe safe_s] in *. apply andb_prop in Hs as (Hs & _). apply andb_prop in Hs as (_ & Hs). eauto.
  - destruct IHuses as (fs & Hs). cbn [safe safe_s] in *. apply andb_prop in Hs as (_ & Hs). eauto.
  - destruct IHuses as (fs & Hs). cbn [safe] in *. unfold safe_t in Hs. apply andb_prop in Hs as (Hs & _). eauto.
  - destruct IHuses as (fs & Hs). cbn [safe] in *. unfold safe_t in Hs. cbn [t_exc] in Hs. apply andb_prop in Hs as (_ & Hs). apply andb_prop in Hs as (_ & Hs). eauto.
  - destruct IHuses as (fs & Hs). cbn [safe] in *. unfold safe_f in Hs. apply andb_prop in Hs as (_ & Hs). eauto.
  - destruct IHuses as (fs & Hs). cbn [safe safe_p] in *. apply andb_prop in Hs as (_ & Hs). exists fs. exact Hs.
  - destruct IHuses as (fs & Hs). cbn [safe safe_p] in *. apply andb_prop in Hs as (_ & Hs). eexists. exact Hs.
  - destruct IHuses as (fs & Hs). exists fs. exact Hs.
Qed.
Lemma skips_nullable : forall n, skips rules cfg n -> construct n -> nullable (heads n) = true.
Proof.
  intros n H. induction H; intros Hc; cbn [heads] in *; try reflexivity.
  - cbn. destruct (class c) as [[rs many]|] eqn:Ec; [|reflexivity]. exfalso. exact (proj1 (class_word _ _ _ _ _ _ _ _ Ec H (goes_nil s)) eq_refl).
  - exfalso. eapply Hfwd; eauto.
  - destruct (rule_safe _ _ H) as (i & Hi & _ & Hh & _). cbn. rewrite Hi. apply (nullable_sub _ _ Hh). apply IHskips. eapply cs_names. exact H.
  - apply reps_nullable.
  - exact (IHskips (cs_group _ _ _ Hc)).
  - unfold heads_f. destruct k; reflexivity.
  - unfold heads_f. apply times_nullable. exact (IHskips (cs_factor _ _ _ Hc)).
  - apply nullable_without. exact (IHskips (cs_term _ _ _ Hc)).
  - destruct (construct_safe _ Hc) as (fs & Hs). cbn [safe safe_s] in Hs. apply andb_prop in Hs as (Hs & _). apply andb_prop in Hs as (Hs & _). unfold bare_ok in Hs. rewrite H in Hs.
    destruct ts; [|discriminate]. apply cats_nullable; [|reflexivity]. destruct t as [[j p] ex]. cbn in H. destruct p; try discriminate. destruct ex; try discriminate. destruct (N.eqb j 1); [|discriminate]. injection H as ->.
    apply nullable_without. apply times_nullable. apply IHskips. eapply cs_group, cs_factor, cs_term, cs_head. exact Hc.
  - apply cats_nullable; [exact (IHskips1 (cs_head _ _ _ Hc))|exact (IHskips2 (cs_rest _ _ _ Hc))].
  - eapply nullable_d; [exact H|]. exact (IHskips (cs_defs _ _ _ Hc H)).
Qed.
Definition under (j : nat) (n : node) : bool :=
  match n with NPrim p => under_p j p | NFactor f => under_p j (f_prim f) | NTerm t => under_t j t | NSeq ts => under_s j ts | NDefs d => under_d j d | _ => false end.
Definition ranked_at (r : rule) : nat := match hentry (r_id r) with Some i => h_rank i | None => 0 end.
Lemma starts_under : forall n r, starts rules cfg n r -> construct n -> forall j, under j n = true -> ranked_at r < j.
Proof.
  intros n r H. induction H; intros Hc j Hl; cbn [under] in *; try (exfalso; eapply Hfwd; eassumption).
  - cbn in Hl. destruct (rule_safe _ _ H) as (i & Hi & Hi' & _). rewrite Hi in Hl. unfold ranked_at. rewrite Hi'. apply Nat.ltb_lt. exact Hl.
  - exact (IHstarts (cs_optional _ _ _ Hc) j Hl).
  - exact (IHstarts (cs_repeated _ _ _ Hc) j Hl).
  - exact (IHstarts (cs_group _ _ _ Hc) j Hl).
  - exact (IHstarts (cs_factor _ _ _ Hc) j Hl).
  - unfold under_t in Hl. apply andb_prop in Hl as (Hl & _). exact (IHstarts (cs_term _ _ _ Hc) j Hl).
  - unfold under_t in Hl. apply andb_prop in Hl as (_ & Hl). exact (IHstarts (cs_except _ _ _ Hc) j Hl).
  - cbn in Hl. apply andb_prop in Hl as (Hl & _). exact (IHstarts (cs_head _ _ _ Hc) j Hl).
  - cbn in Hl. apply andb_prop in Hl as (_ & Hl). rewrite (skips_nullable _ H0 (cs_head _ _ _ Hc) : nullable (heads_t t) = true) in Hl. exact (IHstarts (cs_rest _ _ _ Hc) j Hl).
  - unfold under_d in Hl. rewrite forallb_forall in Hl. exact (IHstarts (cs_defs _ _ _ Hc H) j (Hl d H)).
Qed.
Lemma safe_left : forall r, In r rules -> ~ left_recursive rules cfg r.
Proof.
  assert (T : forall r r', tries rules cfg r r' -> ranked_at r' < ranked_at r).
  { intros r r' (Hin & H). destruct (rule_safe (r_id r) r) as (i & Hi & _ & _ & _ & Hl & _); [split; [exact Hin|apply same_name_keyed; reflexivity]|].
    unfold ranked_at at 2. rewrite Hi. eapply starts_under; [exact H|apply cs_rule; exact Hin|exact Hl]. }
  intros r _ K. unfold left_recursive in K.
  assert (G : forall a b, Relation_Operators.clos_trans rule (tries rules cfg) a b -> ranked_at b < ranked_at a).
  { intros a b C. induction C as [a b C|a b c C1 I1 C2 I2]; [apply T; exact C|lia]. }
  pose proof (G _ _ K). lia.
Qed.
Definition plain (n : node) : bool :=
  match n with NPrim p => plain_p p | NFactor f => plain_p (f_prim f) | NTerm t => plain_t t | NSeq ts => plain_s ts | NDefs d => plain_d d | _ => false end.
Lemma uses_plain : forall n m, SpecExact.uses rules n m -> plain n = true -> plain m = true.
Proof.
  intros n m H Hn. induction H; cbn [plain] in *; try assumption.
  - cbn in IHuses. destruct (rule_safe _ _ H0) as (i & Hi & _ & _ & _ & _ & Hp). rewrite Hi in IHuses. exact (Hp IHuses).
  - unfold plain_d in IHuses. rewrite forallb_forall in IHuses. exact (IHuses _ H0).
  - cbn in IHuses. apply andb_prop in IHuses as (E & _). exact E.
  - cbn in IHuses. apply andb_prop in IHuses as (_ & E). exact E.
  - unfold plain_t in IHuses. cbn in IHuses. destruct e; [discriminate|exact IHuses].
  - discriminate.
Qed.

(** What may follow. *)
Lemma ahead_covered : forall n w, ahead n w -> exists fs, safe n fs = true /\ covered fs w.
Proof.
  intros n w H. induction H.
  - destruct (rule_safe _ _ H) as (i & Hi & _ & _ & Hs & _). exists (h_next i). split; [exact Hs|]. unfold ahead_checks in Hcheck. apply andb_prop in Hcheck as (_ & K). rewrite Hi in K.
    apply existsb_exists in K as (x & Hx & E). apply pat_eqb_eq in E. subst x. apply nil_covered. exact Hx.
  - destruct (rule_safe _ _ H0) as (i & Hi & _ & _ & Hs & _). destruct IHahead as (fs & Hf & p & m & Hp & Sp). cbn [safe safe_p] in Hf. rewrite Hi in Hf.
    exists (h_next i). split; [exact Hs|]. exists p, m. split; [exact (in_subset _ _ _ Hf Hp)|exact Sp].
  - destruct IHahead as (fs & Hs & Hx). cbn [safe] in *. unfold safe_d in Hs. apply andb_prop in Hs as (_ & Hs). rewrite forallb_forall in Hs. exists fs. split; [exact (Hs d H0)|exact Hx].
  - destruct IHahead as (fs & Hs & Hx). cbn [safe safe_s] in *. apply andb_prop in Hs as (Hs & _). apply andb_prop in Hs as (_ & Hs). eexists. split; [exact Hs|].
    apply cats_covered; [exact (xlang_covered _ _ H0)|exact Hx].
  - destruct IHahead as (fs & Hs & Hx). cbn [safe safe_s] in *. apply andb_prop in Hs as (_ & Hs). eauto.
  - destruct IHahead as (fs & Hs & Hx). cbn [safe] in *. unfold safe_t in Hs. apply andb_prop in Hs as (Hs & _). eauto.
  - destruct (construct_safe _ H) as (fs & Hs). cbn [safe] in *. unfold safe_t in Hs. cbn [t_exc] in Hs. apply andb_prop in Hs as (_ & Hs). apply andb_prop in Hs as (_ & Hs).
    eexists. split; [exact Hs|]. apply nil_covered. left. reflexivity.
  - destruct IHahead as (fs & Hs & Hx). cbn [safe] in *. unfold safe_f in Hs. apply andb_prop in Hs as (_ & Hs). cbn [f_prim f_rep] in Hs. eexists. split; [exact Hs|].
    pose proof (cats_covered _ _ _ _ (xlang_covered _ _ H1) Hx) as (p1 & m1 & Hp1 & Sp1). exists p1, m1. split; [|exact Sp1]. apply in_nub, in_flat_map.
    destruct (N.le_gt_cases i (N.of_nat k)) as [Hi|Hi].
    + exists (N.to_nat i). split; [apply in_seq; lia|]. rewrite N2Nat.id. exact Hp1.
    + exists (S k). split; [apply in_seq; lia|]. cbn [heads] in Hp1. unfold heads_f in Hp1. cbn [f_rep f_prim] in Hp1. rewrite (times_many k (N.of_nat (S k)) i) by lia. exact Hp1.
  - destruct IHahead as (fs & Hs & Hx). cbn [safe safe_p] in *. apply andb_prop in Hs as (_ & Hs). exists fs. split; [exact Hs|exact Hx].
  - destruct IHahead as (fs & Hs & Hx). exists fs. split; [exact Hs|exact Hx].
  - destruct IHahead as (fs & Hs & Hx). cbn [safe safe_p] in *. apply andb_prop in Hs as (_ & Hs). eexists. split; [exact Hs|]. apply cats_covered; [exact (xlang_covered _ _ H0)|exact Hx].
Qed.
Lemma apart_in : forall fs l1 d l2 d' l3, apart_ok fs (l1 ++ d :: l2 ++ d' :: l3) = true -> clashes (heads_s d) (cats (heads_s d') fs) = true.
Proof.
  intros fs l1. induction l1 as [|a l1 IH]; intros d l2 d' l3 H; cbn in H.
  - apply andb_prop in H as (H & _). rewrite forallb_forall in H. exact (H d' ltac:(apply in_or_app; right; left; reflexivity)).
  - apply andb_prop in H as (_ & H). exact (IH _ _ _ _ H).
Qed.
Lemma check_determinate : determinate rules cfg start.
Proof.
  split; [|split; [|exact safe_left]].
  - split; [|split; [|split; [|split; [|split; [|split; [|split; [|exact Hfwd]]]]]]].
    + intros H. destruct (construct_safe _ H) as (fs & Hs). discriminate.
    + intros l id H. destruct (construct_safe _ H) as (fs & Hs). cbn [safe safe_p] in Hs. destruct (hentry id) as [i|] eqn:E; [|discriminate]. eapply entry_known; eauto.
    + intros l c s e H K. destruct (construct_safe _ H) as (fs & Hs). cbn [safe safe_p] in Hs. destruct (class c) as [[rs many]|] eqn:Hc; [|discriminate]. rewrite (Hclass l c rs many Hc) in K. inversion K.
    + intros l d H K. destruct (construct_safe _ H) as (fs & Hs). cbn [safe safe_p] in Hs. rewrite (lang_nullable _ _ K eq_refl : nullable (heads_d d) = true) in Hs. discriminate.
    + intros p H _. destruct (construct_safe _ H) as (fs & Hs). cbn [safe] in Hs. unfold safe_f in Hs. cbn [f_rep] in Hs. rewrite N.ltb_irrefl in Hs. discriminate.
    + intros t ts H Hb. destruct (construct_safe _ H) as (fs & Hs). cbn [safe safe_s] in Hs. apply andb_prop in Hs as (Hs & _). apply andb_prop in Hs as (Hs & _).
      unfold bare_ok in Hs. destruct (bare_group t); [|congruence]. destruct ts; [reflexivity|discriminate].
    + intros f e f' e' H K. destruct (construct_safe _ H) as (fs & Hs). cbn [safe] in *. unfold safe_t in Hs. cbn [t_exc] in Hs. apply andb_prop in Hs as (_ & Hs). apply andb_prop in Hs as (Hs & _).
      pose proof (uses_plain _ _ K Hs). discriminate.
  - split; [|split; [|split]].
    + intros l1 d l2 d' l3 y w u v H Hw E Hu. exfalso. destruct (ahead_covered _ _ H) as (fs & Hs & Hx). cbn [safe] in Hs. unfold safe_d in Hs. apply andb_prop in Hs as (Hs & _). apply andb_prop in Hs as (_ & Hs).
      pose proof (cats_covered _ _ _ _ (xlang_covered _ _ Hw) Hx) as K. rewrite E in K. exact (clashes_covered _ _ _ _ (apart_in _ _ _ _ _ _ Hs) (xlang_covered _ _ Hu) K).
    + intros l d u v H Hu. destruct (ahead_covered _ _ H) as (fs & Hs & Hx). cbn [safe safe_p] in Hs. apply andb_prop in Hs as (Hs & _).
      destruct (xlang_covered _ _ Hu) as (p & m & Hp & Sp). destruct u as [|c u]; [reflexivity|]. exfalso. refine (clashes_covered _ _ _ _ Hs _ Hx). exists p, m. split; [|exact Sp].
      apply filter_In. split; [exact Hp|]. destruct p; [|reflexivity]. destruct m; [reflexivity|]. discriminate.
    + intros l d u v H Hu. destruct (ahead_covered _ _ H) as (fs & Hs & Hx). cbn [safe safe_p] in Hs. apply andb_prop in Hs as (Hs & _). apply andb_prop in Hs as (_ & Hs).
      exact (clashes_covered _ _ _ _ Hs (xlang_covered _ _ Hu) Hx).
    + intros l c w s s' H K Hg. destruct (ahead_covered _ _ H) as (fs & Hs & Hx). cbn [safe safe_p] in Hs. destruct (class c) as [[rs many]|] eqn:Hc; [|discriminate].
      inversion K; subst. match goal with X : scanned _ _ _ _, Y : goes _ w _ |- _ => destruct (class_word _ _ _ _ _ _ _ _ Hc X Y) as (W1 & W2 & W3) end.
      rewrite (Hclass l c rs many Hc). eexists. apply sn_chars with (w := w).
      * split; [exact Hg|]. split; [exact W2|]. destruct many.
        -- split; [discriminate|]. destruct (p_rest s') as [|x r] eqn:Er; [left; reflexivity|]. right. right. exists x, r. split; [reflexivity|].
           destruct (has rs x) eqn:Eh; [|reflexivity]. exfalso. destruct Hx as (p & m & Hp & Sp). unfold stops in Hs. rewrite forallb_forall in Hs. specialize (Hs _ Hp). cbn [fst snd] in Hs.
           destruct p as [|r0 p]; cbn in Sp; [rewrite Sp in Hs; discriminate|]. exact (apart_has _ _ _ Hs Eh (proj1 Sp)).
        -- rewrite (W3 eq_refl). split; [intros m E; injection E as <-; cbn; lia|]. right. left. reflexivity.
      * intros (m & E & L). injection E as <-. destruct w; [congruence|cbn in L; lia].
Qed.
End Table.

(** ** Computing a table *)
Section Compute.
Variable rules : list rule.
Section Uses.
Variable tbl : list (str * hinfo).
(** What the references in a construct may be followed by. *)
Fixpoint calls_p (p : primary) (fs : list pat) : list (str * list pat) :=
  let calls_f (f : factor_ primary) (fs : list pat) := calls_p (f_prim f) (rounds (f_rep f) (heads_p tbl (f_prim f)) fs) in
  let calls_t (t : term_ primary) (fs : list pat) := calls_f (t_factor t) fs ++ match t_exc t with Some e => calls_f e [([], false)] | None => [] end in
  let calls_s := fix go ts fs := match ts with [] => [] | t :: ts => calls_t t (cats (heads_s tbl ts) fs) ++ go ts fs end in
  match p with
  | PTerminal _ _ | PEmpty _ | PSpecial _ _ => []
  | PMeta _ id => [(keyed id, fs)]
  | POptional _ d | PGrouped _ d => flat_map (fun ts => calls_s ts fs) d
  | PRepeated _ d => flat_map (fun ts => calls_s ts (cats (reps k (heads_d tbl d)) fs)) d
  end.
Definition calls : list (str * list pat) :=
  flat_map (fun r => match hentry tbl (r_id r) with Some i => calls_p (PGrouped (loc_new []) (r_defs r)) (h_next i) | None => [] end) rules.
Fixpoint height_p (p : primary) : nat :=
  let height_t (t : term_ primary) := Nat.max (height_p (f_prim (t_factor t))) (match t_exc t with Some e => height_p (f_prim e) | None => 0 end) in
  let height_s := fold_right (fun t rest => Nat.max (height_t t) (if nullable (heads_t tbl t) then rest else 0)) 0 in
  match p with
  | PTerminal _ _ | PEmpty _ | PSpecial _ _ => 0
  | PMeta _ id => match hentry tbl id with Some i => S (h_rank i) | None => 0 end
  | POptional _ d | PRepeated _ d | PGrouped _ d => fold_right (fun ts m => Nat.max (height_s ts) m) 0 d
  end.
Definition improve (start : str) : list (str * hinfo) :=
  let us := calls in
  map (fun r =>
    let key := keyed (r_id r) in
    let mine := filter (fun u => str_eqb (fst u) key) us in
    let old := hentry tbl (r_id r) in
    (key, HInfo (heads_d tbl (r_defs r))
      (nub ((if str_eqb key (keyed start) then [([], false)] else []) ++ flat_map snd mine))
      (height_p (PGrouped (loc_new []) (r_defs r))) (plain_d tbl (r_defs r)))) rules.
End Uses.
Fixpoint improved (n : nat) (start : str) (tbl : list (str * hinfo)) : list (str * hinfo) :=
  match n with 0 => tbl | S n => improved n start (improve tbl start) end.
Definition ahead_table (n : nat) (start : str) : list (str * hinfo) :=
  improved n start (map (fun r => (keyed (r_id r), HInfo [] [] 0 true)) rules).
(** [n] rounds are made to compute the table. *)
Definition decided_ahead (n : nat) (start : str) : bool := ahead_checks (ahead_table n start) rules start.
End Compute.
End Ahead.
Lemma decided_determinate : forall k class n rules cfg start, decided_ahead k class rules n start = true ->
  (forall l c rs many, class c = Some (rs, many) -> cfg l c = ScChars (has rs) (Some 1%N) (if many then None else Some 1%N)) ->
  no_forwarding cfg -> determinate rules cfg start.
Proof. intros k class n rules cfg start H Hc Hf. exact (check_determinate k class (ahead_table k class rules n start) rules cfg start H Hc Hf). Qed.
