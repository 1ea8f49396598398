(** A check for grammars that can be parsed by looking one character ahead.

    Nothing here is taken from the code: it is a computation which, where it answers [true],
    spares proving [predictive] (SpecLL.v) by hand.  It works on a table with, for each rule,
    the characters its words begin with, whether it may be empty, what may follow it and a
    rank for the absence of left recursion.  [table] computes one, [checks] verifies it. *)
From Coq Require Import String List NArith Arith Bool Lia.
From Verif Require Import Base Ident Ast Graph SpecText SpecSyntax TextFacts SyntaxFacts SpecParse SpecEvents SpecTotal SpecLL ParseFacts EvFacts.
Import ListNotations.
Open Scope nat_scope.

(** ** Sets of characters, as ranges *)
Definition ranges := list (N * N).
Definition has (rs : ranges) (c : N) : bool := existsb (fun r => N.leb (fst r) c && N.leb c (snd r)) rs.
Definition apart1 (a b : N * N) : bool := N.ltb (snd a) (fst b) || N.ltb (snd b) (fst a).
Definition apart (a b : ranges) : bool := forallb (fun x => forallb (apart1 x) b) a.
Definition within (a b : ranges) : bool := forallb (fun x => existsb (fun y => N.leb (fst y) (fst x) && N.leb (snd x) (snd y)) b) a.
Lemma has_app : forall a b c, has (a ++ b) c = has a c || has b c.
Proof. intros a b c. apply existsb_app. Qed.
Lemma apart_has : forall a b c, apart a b = true -> has a c = true -> has b c = true -> False.
Proof.
  intros a b c H Ha Hb. apply existsb_exists in Ha as (x & Hx & Ex). apply existsb_exists in Hb as (y & Hy & Ey).
  unfold apart in H. rewrite forallb_forall in H. specialize (H x Hx). rewrite forallb_forall in H. specialize (H y Hy).
  unfold apart1 in H. apply andb_prop in Ex as (E1 & E2), Ey as (E3 & E4). apply N.leb_le in E1, E2, E3, E4.
  apply orb_prop in H as [H|H]; apply N.ltb_lt in H; lia.
Qed.
Lemma within_has : forall a b c, within a b = true -> has a c = true -> has b c = true.
Proof.
  intros a b c H Ha. apply existsb_exists in Ha as (x & Hx & Ex). unfold within in H. rewrite forallb_forall in H. specialize (H x Hx).
  apply existsb_exists in H as (y & Hy & Ey). apply existsb_exists. exists y. split; [exact Hy|].
  apply andb_prop in Ex as (E1 & E2), Ey as (E3 & E4). apply N.leb_le in E1, E2, E3, E4. apply andb_true_intro. split; apply N.leb_le; lia.
Qed.

(** ** Tables *)
Record info := Info { i_null : bool; i_first : ranges; i_end : bool; i_next : ranges; i_rank : nat }.
Section Table.
(** The special sequences that are understood: [Some (rs, false)] reads one character in
    [rs], [Some (rs, true)] as many as there are but at least one. *)
Variable class : str -> option (ranges * bool).
Variable tbl : list (str * info).
Definition entry (id : str) : option info :=
  match find (fun e => str_eqb (fst e) (keyed id)) tbl with Some e => Some (snd e) | None => None end.
Fixpoint null_p (p : primary) : bool :=
  let null_t (t : term_ primary) := N.eqb (f_rep (t_factor t)) 0 || null_p (f_prim (t_factor t)) in
  match p with
  | PTerminal _ w => match w with [] => true | _ => false end
  | PEmpty _ => true
  | PSpecial _ _ => false
  | PMeta _ id => match entry id with Some i => i_null i | None => true end
  | POptional _ _ | PRepeated _ _ => true
  | PGrouped _ d => existsb (forallb null_t) d
  end.
Definition null_f (f : factor) : bool := N.eqb (f_rep f) 0 || null_p (f_prim f).
Definition null_t (t : term) : bool := null_f (t_factor t).
Definition null_s (ts : list term) : bool := forallb null_t ts.
Definition null_d (d : definition_list) : bool := existsb null_s d.
Fixpoint first_p (p : primary) : ranges :=
  let first_t (t : term_ primary) := first_p (f_prim (t_factor t)) in
  let first_s := fold_right (fun t rest => first_t t ++ if null_t t then rest else []) [] in
  match p with
  | PTerminal _ w => match w with [] => [] | c :: _ => [(c, c)] end
  | PEmpty _ => []
  | PSpecial _ c => match class c with Some (rs, _) => rs | None => [] end
  | PMeta _ id => match entry id with Some i => i_first i | None => [] end
  | POptional _ d | PRepeated _ d | PGrouped _ d => flat_map first_s d
  end.
Definition first_f (f : factor) : ranges := first_p (f_prim f).
Definition first_t (t : term) : ranges := first_f (t_factor t).
Definition first_s (ts : list term) : ranges := fold_right (fun t rest => first_t t ++ if null_t t then rest else []) [] ts.
Definition first_d (d : definition_list) : ranges := flat_map first_s d.
(** The rules that may be tried before anything is read have ranks below [k]. *)
Fixpoint low_p (k : nat) (p : primary) : bool :=
  let low_t (t : term_ primary) := low_p k (f_prim (t_factor t)) in
  let low_s := fold_right (fun t rest => low_t t && (negb (null_t t) || rest)) true in
  match p with
  | PTerminal _ _ | PEmpty _ | PSpecial _ _ => true
  | PMeta _ id => match entry id with Some i => Nat.ltb (i_rank i) k | None => false end
  | POptional _ d | PRepeated _ d | PGrouped _ d => forallb low_s d
  end.
Definition low_t (k : nat) (t : term) : bool := low_p k (f_prim (t_factor t)).
Definition low_s (k : nat) (ts : list term) : bool := fold_right (fun t rest => low_t k t && (negb (null_t t) || rest)) true ts.
Definition low_d (k : nat) (d : definition_list) : bool := forallb (low_s k) d.
(** The conditions on a construct that may be followed by the end of the text (if [e]) and
    the characters [fs]. *)
Definition choice_ok (fs : ranges) : definition_list -> bool := fix go ds :=
  match ds with
  | [] => true
  | d :: ds =>
      forallb (fun d' => negb (null_s d) && apart (first_s d) (first_s d') && (negb (null_s d') || apart (first_s d) fs)) ds && go ds
  end.
Definition bare_ok (t : term) (ts : list term) : bool :=
  match bare_group t, ts with Some _, _ :: _ => false | _, _ => true end.
Definition filled_d (ds : definition_list) : bool := match ds with [] => false | _ => true end.
Fixpoint ok_p (p : primary) (e : bool) (fs : ranges) : bool :=
  let ok_t (t : term_ primary) (e : bool) (fs : ranges) :=
    match t_exc t with
    | Some _ => false
    | None => N.ltb (f_rep (t_factor t)) max_count &&
        ok_p (f_prim (t_factor t)) e ((if N.ltb 1 (f_rep (t_factor t)) then first_f (t_factor t) else []) ++ fs)
    end in
  let ok_s := fix go ts (e : bool) fs :=
    match ts with
    | [] => true
    | t :: ts => bare_ok t ts && ok_t t (null_s ts && e) (first_s ts ++ if null_s ts then fs else []) && go ts e fs
    end in
  match p with
  | PTerminal _ _ | PEmpty _ => true
  | PSpecial _ c => match class c with None => false | Some (rs, true) => apart rs fs | Some (_, false) => true end
  | PMeta _ id => match entry id with None => false | Some i => implb e (i_end i) && within fs (i_next i) end
  | POptional _ d => apart (first_d d) fs && (filled_d d && choice_ok fs d && forallb (fun ts => ok_s ts e fs) d)
  | PRepeated _ d => negb (null_d d) && apart (first_d d) fs &&
      (let fs' := first_d d ++ fs in filled_d d && choice_ok fs' d && forallb (fun ts => ok_s ts e fs') d)
  | PGrouped _ d => filled_d d && choice_ok fs d && forallb (fun ts => ok_s ts e fs) d
  end.
Definition ok_f (f : factor) (e : bool) (fs : ranges) : bool :=
  N.ltb (f_rep f) max_count && ok_p (f_prim f) e ((if N.ltb 1 (f_rep f) then first_f f else []) ++ fs).
Definition ok_t (t : term) (e : bool) (fs : ranges) : bool := match t_exc t with Some _ => false | None => ok_f (t_factor t) e fs end.
Fixpoint ok_s (ts : list term) (e : bool) (fs : ranges) : bool :=
  match ts with
  | [] => true
  | t :: ts => bare_ok t ts && ok_t t (null_s ts && e) (first_s ts ++ if null_s ts then fs else []) && ok_s ts e fs
  end.
Definition ok_d (d : definition_list) (e : bool) (fs : ranges) : bool := filled_d d && choice_ok fs d && forallb (fun ts => ok_s ts e fs) d.
Definition ok_rule (rules : list rule) (r : rule) : bool :=
  match entry (r_id r) with
  | None => false
  | Some i => implb (null_d (r_defs r)) (i_null i) && within (first_d (r_defs r)) (i_first i) &&
      ok_d (r_defs r) (i_end i) (i_next i) && low_d (i_rank i) (r_defs r)
  end.
Definition declared (rules : list rule) : bool :=
  forallb (fun e => existsb (fun r => str_eqb (fst e) (keyed (r_id r))) rules) tbl.
Definition checks (rules : list rule) (start : str) : bool :=
  declared rules && forallb (ok_rule rules) rules && match entry start with Some i => i_end i | None => false end.

(** ** What follows from it *)
Variable rules : list rule.
Variable cfg : config.
Variable start : str.
Hypothesis Hcheck : checks rules start = true.
Hypothesis Hclass : forall l c rs many, class c = Some (rs, many) -> cfg l c = ScChars (has rs) (Some 1%N) (if many then None else Some 1%N).
Hypothesis Hfwd : no_forwarding cfg.
Notation lang := (lang cfg rules).
Notation part := (part rules).
Notation begins := (begins rules cfg).
Notation vanishes := (vanishes rules cfg).
Notation after := (after rules cfg start).
Definition null (n : node) : bool :=
  match n with NPrim p => null_p p | NFactor f => null_f f | NTerm t => null_t t | NSeq ts => null_s ts | NDefs d => null_d d | _ => true end.
Definition first (n : node) : ranges :=
  match n with NPrim p => first_p p | NFactor f => first_f f | NTerm t => first_t t | NSeq ts => first_s ts | NDefs d => first_d d | _ => [] end.
Definition ok (n : node) (e : bool) (fs : ranges) : bool :=
  match n with NPrim p => ok_p p e fs | NFactor f => ok_f f e fs | NTerm t => ok_t t e fs | NSeq ts => ok_s ts e fs | NDefs d => ok_d d e fs | _ => false end.
Lemma entry_name : forall id r, names rules id r -> entry id = entry (r_id r).
Proof. intros id r (_ & H). apply same_name_keyed in H. unfold entry. rewrite H. reflexivity. Qed.
Lemma rule_ok : forall id r, names rules id r -> exists i, entry id = Some i /\ entry (r_id r) = Some i /\
  (null_d (r_defs r) = true -> i_null i = true) /\ within (first_d (r_defs r)) (i_first i) = true /\
  ok_d (r_defs r) (i_end i) (i_next i) = true /\ low_d (i_rank i) (r_defs r) = true.
Proof.
  intros id r H. rewrite (entry_name _ _ H). unfold checks in Hcheck. apply andb_prop in Hcheck as (H1 & _). apply andb_prop in H1 as (_ & H1).
  rewrite forallb_forall in H1. specialize (H1 r (proj1 H)). unfold ok_rule in H1. destruct (entry (r_id r)) as [i|]; [|discriminate]. exists i.
  apply andb_prop in H1 as (H1 & Hl). apply andb_prop in H1 as (H1 & Ho). apply andb_prop in H1 as (Hn & Hf).
  repeat split; auto. intros E. rewrite E in Hn. exact Hn.
Qed.
Lemma entry_defined : forall id i, entry id = Some i -> defined rules id.
Proof.
  intros id i H. unfold entry in H. destruct (find _ tbl) as [e|] eqn:Ef; [|discriminate]. apply find_some in Ef as (Hin & He).
  unfold checks in Hcheck. apply andb_prop in Hcheck as (H1 & _). apply andb_prop in H1 as (H1 & _). unfold declared in H1.
  rewrite forallb_forall in H1. specialize (H1 e Hin). apply existsb_exists in H1 as (r & Hr & Er). exists r. split; [exact Hr|].
  apply same_name_keyed. apply str_eqb_eq in He, Er. congruence.
Qed.

Lemma part_ok : forall n, part n -> exists e fs, ok n e fs = true.
Proof.
  intros n H. induction H.
  - destruct (rule_ok (r_id r) r) as (i & _ & _ & _ & _ & Ho & _); [split; [exact H|apply same_name_keyed; reflexivity]|]. eauto.
  - destruct IHpart as (e & fs & Ho). cbn [ok] in *. apply andb_prop in Ho as (_ & Ho). rewrite forallb_forall in Ho. exists e, fs. exact (Ho d H0).
  - destruct IHpart as (e & fs & Ho). cbn [ok ok_s] in *. apply andb_prop in Ho as (Ho & _). apply andb_prop in Ho as (_ & Ho). eauto.
  - destruct IHpart as (e & fs & Ho). cbn [ok ok_s] in *. apply andb_prop in Ho as (_ & Ho). eauto.
  - destruct IHpart as (e0 & fs & Ho). cbn [ok ok_t t_exc t_factor] in *. unfold ok_t in Ho. cbn in Ho. destruct e; [discriminate|]. eauto.
  - destruct IHpart as (e & fs & Ho). cbn [ok] in *. unfold ok_f in Ho. apply andb_prop in Ho as (_ & Ho). cbn in Ho. eauto.
  - destruct IHpart as (e & fs & Ho). cbn [ok ok_p] in *. apply andb_prop in Ho as (_ & Ho). exists e, fs. exact Ho.
  - destruct IHpart as (e & fs & Ho). cbn [ok ok_p] in *. apply andb_prop in Ho as (_ & Ho). exists e, (first_d d ++ fs). exact Ho.
  - destruct IHpart as (e & fs & Ho). cbn [ok ok_p] in *. exists e, fs. exact Ho.
Qed.
Lemma class_of : forall l c, part (NPrim (PSpecial l c)) -> exists rs many, class c = Some (rs, many).
Proof.
  intros l c H. destruct (part_ok _ H) as (e & fs & Ho). cbn [ok ok_p] in Ho. destruct (class c) as [[rs many]|]; [eauto|discriminate].
Qed.
Lemma special_word : forall l c rs many s s' e w, class c = Some (rs, many) -> scanned (cfg l c) l s (SMatch s' e) -> goes s w s' ->
  w <> [] /\ Forall (fun x => has rs x = true) w /\ (many = false -> length w = 1).
Proof.
  intros l c rs many s s' e w Hc H Hg. rewrite (Hclass l c rs many Hc) in H. inversion H as [|pred mn mx def s0 w0 s0' Hrun Hshort| | | | |]; subst.
  destruct Hrun as (Hg0 & HF & Hm & _). rewrite (goes_word _ _ _ _ Hg Hg0). split; [|split; [exact HF|]].
  - intros ->. apply Hshort. exists 1%N. cbn. split; [reflexivity|lia].
  - intros ->. specialize (Hm 1%N eq_refl). destruct w0 as [|x [|y w0]]; cbn in Hm; [|reflexivity|lia]. exfalso. apply Hshort. exists 1%N. cbn. split; [reflexivity|lia].
Qed.
Definition good (n : node) : Prop := match n with NFactor f => part (NPrim (f_prim f)) | _ => part n end.
Lemma lang_table : forall n w, lang n w -> good n -> (w = [] -> null n = true) /\ (forall c v, w = c :: v -> has (first n) c = true).
Proof.
  intros n w H. induction H; intros Hp; cbn [good null first] in *.
  - destruct w as [|c w]; cbn; [split; [reflexivity|discriminate]|]. split; [discriminate|]. intros c0 v E. injection E as <- _. rewrite N.leb_refl. reflexivity.
  - split; [reflexivity|discriminate].
  - destruct (class_of _ _ Hp) as (rs & many & Hc). destruct (special_word _ _ _ _ _ _ _ _ Hc H H0) as (Hne & HF & _). split; [congruence|].
    intros c0 v ->. cbn. rewrite Hc. exact (Forall_inv HF).
  - destruct (rule_ok _ _ H) as (i & Hi & _ & Hn & Hf & _). destruct (IHlang (pt_rule _ _ (proj1 H))) as (I1 & I2). cbn. rewrite Hi. split; [auto|].
    intros c v E. eapply within_has; [exact Hf|]. eapply I2; eauto.
  - split; [reflexivity|discriminate].
  - destruct (IHlang (pt_optional _ _ _ Hp)) as (_ & I2). split; [reflexivity|exact I2].
  - split; [reflexivity|discriminate].
  - destruct (IHlang1 (pt_repeated _ _ _ Hp)) as (_ & I1). destruct (IHlang2 Hp) as (_ & I2). split; [reflexivity|].
    intros c v E. destruct w1 as [|c1 w1]; [exact (I2 c v E)|]. injection E as -> _. exact (I1 c w1 eq_refl).
  - destruct (IHlang (pt_group _ _ _ Hp)) as (I1 & I2). split; [exact I1|exact I2].
  - split; [reflexivity|discriminate].
  - destruct (IHlang1 Hp) as (I1 & J1). destruct (IHlang2 Hp) as (_ & J2). split.
    + intros E. apply app_eq_nil in E as (E & _). unfold null_f. cbn. rewrite (I1 E). apply orb_true_r.
    + intros c v E. destruct w1 as [|c1 w1]; [exact (J2 c v E)|]. injection E as -> _. exact (J1 c w1 eq_refl).
  - destruct f as [k p]. destruct (IHlang (pt_factor _ _ _ (pt_term _ _ _ Hp))) as (I1 & I2). split; [exact I1|exact I2].
  - split; [reflexivity|discriminate].
  - destruct (IHlang1 (pt_head _ _ _ Hp)) as (I1 & J1). destruct (IHlang2 (pt_rest _ _ _ Hp)) as (I2 & J2). split.
    + intros E. apply app_eq_nil in E as (E1 & E2). cbn. change (forallb null_t ts) with (null_s ts). rewrite (I1 E1), (I2 E2). reflexivity.
    + intros c v E. change (first_s (t :: ts)) with (first_t t ++ if null_t t then first_s ts else []). rewrite has_app. destruct w1 as [|c1 w1].
      * rewrite (I1 eq_refl), (J2 c v E). apply orb_true_r.
      * injection E as -> _. rewrite (J1 c w1 eq_refl). reflexivity.
  - destruct (IHlang (pt_defs _ _ _ Hp H)) as (I1 & I2). split.
    + intros E. apply existsb_exists. exists d. split; [exact H|exact (I1 E)].
    + intros c v E. specialize (I2 c v E). unfold has in *. apply existsb_exists in I2 as (x & Hx & Ex). apply existsb_exists. exists x. split; [|exact Ex].
      apply in_flat_map. exists d. auto.
Qed.
Lemma part_good : forall n, part n -> good n.
Proof. intros n H. destruct n; try exact H. destruct f as [k p]. cbn. eapply pt_factor. exact H. Qed.
Lemma vanishes_null : forall n, part n -> vanishes n -> null n = true.
Proof. intros n Hp H. exact (proj1 (lang_table _ _ H (part_good _ Hp)) eq_refl). Qed.
Lemma begins_first : forall n c, part n -> begins n c -> has (first n) c = true.
Proof. intros n c Hp (w & H). exact (proj2 (lang_table _ _ H (part_good _ Hp)) c w eq_refl). Qed.

(** Left recursion. *)
Lemma skips_null : forall n, skips rules cfg n -> good n -> null n = true.
Proof.
  intros n H. induction H; intros Hp; cbn [good null] in *; try reflexivity.
  - exfalso. destruct (class_of _ _ Hp) as (rs & many & Hc). exact (proj1 (special_word _ _ _ _ _ _ _ _ Hc H (goes_nil s)) eq_refl).
  - exfalso. eapply Hfwd; eauto.
  - destruct (rule_ok _ _ H) as (i & Hi & _ & Hn & _). cbn. rewrite Hi. apply Hn. apply IHskips. apply pt_rule. exact (proj1 H).
  - exact (IHskips (pt_group _ _ _ Hp)).
  - unfold null_f. cbn in *. rewrite (IHskips Hp). apply orb_true_r.
  - destruct f as [k p]. exact (IHskips (pt_factor _ _ _ (pt_term _ _ _ Hp))).
  - destruct (part_ok _ Hp) as (e & fs & Ho). cbn [ok ok_s] in Ho. apply andb_prop in Ho as (Ho & _). apply andb_prop in Ho as (Ho & _). unfold bare_ok in Ho. rewrite H in Ho.
    destruct ts; [|discriminate]. change (null_t t && true = true). rewrite andb_true_r. destruct t as [[k p] ex]. cbn in H. destruct p; try discriminate. destruct ex; try discriminate. destruct (N.eqb k 1); [|discriminate]. injection H as ->.
    assert (Hd : null_d d = true) by (apply IHskips; eapply pt_group, pt_factor, pt_term, pt_head; exact Hp). change ((k =? 0)%N || null_d d = true). rewrite Hd. apply orb_true_r.
  - cbn. change (forallb null_t ts) with (null_s ts). rewrite (IHskips1 (pt_head _ _ _ Hp)), (IHskips2 (pt_rest _ _ _ Hp)). reflexivity.
  - apply existsb_exists. exists d. split; [exact H|exact (IHskips (pt_defs _ _ _ Hp H))].
Qed.
Definition low (k : nat) (n : node) : bool :=
  match n with NPrim p => low_p k p | NFactor f => low_p k (f_prim f) | NTerm t => low_t k t | NSeq ts => low_s k ts | NDefs d => low_d k d | _ => false end.
Definition rank (r : rule) : nat := match entry (r_id r) with Some i => i_rank i | None => 0 end.
Lemma starts_low : forall n r, starts rules cfg n r -> part n -> forall k, low k n = true -> rank r < k.
Proof.
  intros n r H. induction H; intros Hp k Hl; cbn [low] in *; try (exfalso; eapply Hfwd; eassumption).
  - cbn in Hl. destruct (rule_ok _ _ H) as (i & Hi & Hi' & _). rewrite Hi in Hl. unfold rank. rewrite Hi'. apply Nat.ltb_lt. exact Hl.
  - exact (IHstarts (pt_optional _ _ _ Hp) k Hl).
  - exact (IHstarts (pt_repeated _ _ _ Hp) k Hl).
  - exact (IHstarts (pt_group _ _ _ Hp) k Hl).
  - exact (IHstarts (pt_factor _ _ _ Hp) k Hl).
  - destruct f as [j p]. exact (IHstarts (pt_term _ _ _ Hp) k Hl).
  - exfalso. destruct (part_ok _ Hp) as (e0 & fs & Ho). discriminate.
  - cbn in Hl. apply andb_prop in Hl as (Hl & _). exact (IHstarts (pt_head _ _ _ Hp) k Hl).
  - cbn in Hl. apply andb_prop in Hl as (_ & Hl). rewrite (skips_null _ H0 (part_good _ (pt_head _ _ _ Hp)) : null_t t = true) in Hl. exact (IHstarts (pt_rest _ _ _ Hp) k Hl).
  - unfold low_d in Hl. rewrite forallb_forall in Hl. exact (IHstarts (pt_defs _ _ _ Hp H) k (Hl d H)).
Qed.
Lemma tries_low : forall r r', tries rules cfg r r' -> rank r' < rank r.
Proof.
  intros r r' (Hin & H). destruct (rule_ok (r_id r) r) as (i & Hi & _ & _ & _ & _ & Hl); [split; [exact Hin|apply same_name_keyed; reflexivity]|].
  unfold rank at 2. rewrite Hi. eapply starts_low; [exact H|apply pt_rule; exact Hin|exact Hl].
Qed.
Lemma no_left : forall r, In r rules -> ~ left_recursive rules cfg r.
Proof.
  intros r _ K. unfold left_recursive in K.
  assert (G : forall a b, Relation_Operators.clos_trans rule (tries rules cfg) a b -> rank b < rank a).
  { intros a b C. induction C as [a b C|a b c C1 I1 C2 I2]; [apply tries_low; exact C|lia]. }
  pose proof (G _ _ K). lia.
Qed.

(** What may follow. *)
Definition fits (n : node) (x : option N) : Prop :=
  exists e fs, ok n e fs = true /\ match x with None => e = true | Some c => has fs c = true end.
Lemma after_part' : forall n x, after n x -> part n.
Proof.
  intros n x H. induction H; try (apply pt_rule; match goal with X : names _ _ _ |- _ => exact (proj1 X) end); eauto using SpecLL.part.
Qed.
Lemma after_fits : forall n x, after n x -> fits n x.
Proof.
  intros n x H. induction H.
  - destruct (rule_ok _ _ H) as (i & Hi & _ & _ & _ & Ho & _). exists (i_end i), (i_next i). split; [exact Ho|].
    unfold checks in Hcheck. apply andb_prop in Hcheck as (_ & K). rewrite Hi in K. exact K.
  - destruct (rule_ok _ _ H0) as (i & Hi & _ & _ & _ & Ho & _). destruct IHafter as (e & fs & Hk & Hx). cbn [ok ok_p] in Hk. rewrite Hi in Hk.
    apply andb_prop in Hk as (K1 & K2). exists (i_end i), (i_next i). split; [exact Ho|]. destruct x as [c|]; [eapply within_has; eauto|]. rewrite Hx in K1. exact K1.
  - destruct IHafter as (e & fs & Ho & Hx). cbn [ok] in Ho. apply andb_prop in Ho as (_ & Ho). rewrite forallb_forall in Ho. exists e, fs. split; [exact (Ho d H0)|exact Hx].
  - destruct IHafter as (e & fs & Ho & Hx). cbn [ok ok_s] in Ho. apply andb_prop in Ho as (Ho & _). apply andb_prop in Ho as (_ & Ho).
    eexists _, _. split; [exact Ho|]. rewrite has_app. rewrite (begins_first _ _ (pt_rest _ _ _ (after_part' _ _ H)) H0 : has (first_s ts) c = true). reflexivity.
  - destruct IHafter as (e & fs & Ho & Hx). cbn [ok ok_s] in Ho. apply andb_prop in Ho as (Ho & _). apply andb_prop in Ho as (_ & Ho).
    eexists _, _. split; [exact Ho|]. rewrite (vanishes_null _ (pt_rest _ _ _ (after_part' _ _ H)) H0 : null_s ts = true). destruct x as [c|]; [|exact Hx]. rewrite has_app, Hx. apply orb_true_r.
  - destruct IHafter as (e & fs & Ho & Hx). cbn [ok ok_s] in Ho. apply andb_prop in Ho as (_ & Ho). exists e, fs. auto.
  - destruct IHafter as (e0 & fs & Ho & Hx). cbn [ok] in Ho. unfold ok_t in Ho. cbn in Ho. destruct e; [discriminate|]. exists e0, fs. auto.
  - destruct IHafter as (e & fs & Ho & Hx). cbn [ok] in Ho. unfold ok_f in Ho. apply andb_prop in Ho as (_ & Ho). eexists _, _. split; [exact Ho|].
    destruct x as [c|]; [|exact Hx]. rewrite has_app, Hx. apply orb_true_r.
  - destruct IHafter as (e & fs & Ho & Hx). cbn [ok] in Ho. unfold ok_f in Ho. apply andb_prop in Ho as (_ & Ho). eexists _, _. split; [exact Ho|].
    cbn [f_rep]. apply N.ltb_lt in H0. rewrite H0, has_app. rewrite (begins_first _ _ (pt_factor _ _ _ (after_part' _ _ H)) H1 : has (first_f (Factor n p)) c = true). reflexivity.
  - destruct IHafter as (e & fs & Ho & Hx). cbn [ok ok_p] in Ho. apply andb_prop in Ho as (_ & Ho). exists e, fs. split; [exact Ho|exact Hx].
  - destruct IHafter as (e & fs & Ho & Hx). exists e, fs. split; [exact Ho|exact Hx].
  - destruct IHafter as (e & fs & Ho & Hx). cbn [ok ok_p] in Ho. apply andb_prop in Ho as (_ & Ho). exists e, (first_d d ++ fs). split; [exact Ho|].
    destruct x as [c|]; [|exact Hx]. rewrite has_app, Hx. apply orb_true_r.
  - destruct IHafter as (e & fs & Ho & Hx). cbn [ok ok_p] in Ho. apply andb_prop in Ho as (_ & Ho). exists e, (first_d d ++ fs). split; [exact Ho|].
    rewrite has_app. rewrite (begins_first _ _ (pt_repeated _ _ _ (after_part' _ _ H)) H0 : has (first_d d) c = true). reflexivity.
Qed.
Lemma choice_in : forall fs l1 d l2 d' l3, choice_ok fs (l1 ++ d :: l2 ++ d' :: l3) = true ->
  null_s d = false /\ apart (first_s d) (first_s d') = true /\ (null_s d' = true -> apart (first_s d) fs = true).
Proof.
  intros fs l1. induction l1 as [|a l1 IH]; intros d l2 d' l3 H; cbn in H.
  - apply andb_prop in H as (H & _). rewrite forallb_forall in H. specialize (H d' ltac:(apply in_or_app; right; left; reflexivity)).
    apply andb_prop in H as (H & H3). apply andb_prop in H as (H1 & H2). apply negb_true_iff in H1. repeat split; auto. intros E. rewrite E in H3. exact H3.
  - apply andb_prop in H as (_ & H). exact (IH _ _ _ _ H).
Qed.
Lemma check_predictive : predictive rules cfg start.
Proof.
  split; [|split; [|split; [|exact no_left]]].
  - split; [|split; [|split; [|split; [|split; [|exact Hfwd]]]]].
    + intros H. destruct (part_ok _ H) as (e & fs & Ho). discriminate.
    + intros l id H. destruct (part_ok _ H) as (e & fs & Ho). cbn [ok ok_p] in Ho. destruct (entry id) as [i|] eqn:E; [|discriminate]. eapply entry_defined; eauto.
    + intros l c s e H K. destruct (class_of _ _ H) as (rs & many & Hc). rewrite (Hclass l c rs many Hc) in K. inversion K.
    + intros l d H K. pose proof (vanishes_null _ (pt_repeated _ _ _ H) K) as Hn. cbn [null] in Hn. destruct (part_ok _ H) as (e & fs & Ho). cbn [ok ok_p] in Ho.
      rewrite Hn in Ho. discriminate.
    + intros p H _. destruct (part_ok _ H) as (e & fs & Ho). cbn [ok] in Ho. unfold ok_f in Ho. cbn [f_rep] in Ho. rewrite N.ltb_irrefl in Ho. discriminate.
  - split.
    + intros f e H. destruct (part_ok _ H) as (e0 & fs & Ho). discriminate.
    + intros t ts H Hb. destruct (part_ok _ H) as (e & fs & Ho). cbn [ok ok_s] in Ho. apply andb_prop in Ho as (Ho & _). apply andb_prop in Ho as (Ho & _).
      unfold bare_ok in Ho. destruct (bare_group t); [|congruence]. destruct ts; [reflexivity|discriminate].
  - split; [|split; [|split]].
    + intros l1 d l2 d' l3 x H. pose proof (after_part' _ _ H) as Hp. destruct (after_fits _ _ H) as (e & fs & Ho & Hx). cbn [ok] in Ho. unfold ok_d in Ho. apply andb_prop in Ho as (Ho & _). apply andb_prop in Ho as (_ & Ho).
      destruct (choice_in _ _ _ _ _ _ Ho) as (C1 & C2 & C3).
      assert (Pd : part (NSeq d)) by (eapply pt_defs; [exact Hp|apply in_or_app; right; left; reflexivity]).
      assert (Pd' : part (NSeq d')) by (eapply pt_defs; [exact Hp|apply in_or_app; right; right; apply in_or_app; right; left; reflexivity]).
      split; [|split].
      * intros K. pose proof (vanishes_null _ Pd K). cbn in *. congruence.
      * intros c K1 K2. eapply apart_has; [exact C2|exact (begins_first _ _ Pd K1)|exact (begins_first _ _ Pd' K2)].
      * intros K c -> K2. eapply apart_has; [exact (C3 (vanishes_null _ Pd' K))|exact (begins_first _ _ Pd K2)|exact Hx].
    + intros l d c H K. pose proof (after_part' _ _ H) as Hp. destruct (after_fits _ _ H) as (e & fs & Ho & Hx). cbn [ok ok_p] in Ho. apply andb_prop in Ho as (Ho & _).
      eapply apart_has; [exact Ho|exact (begins_first _ _ (pt_optional _ _ _ Hp) K)|exact Hx].
    + intros l d c H K. pose proof (after_part' _ _ H) as Hp. destruct (after_fits _ _ H) as (e & fs & Ho & Hx). cbn [ok ok_p] in Ho. apply andb_prop in Ho as (Ho & _). apply andb_prop in Ho as (_ & Ho).
      eapply apart_has; [exact Ho|exact (begins_first _ _ (pt_repeated _ _ _ Hp) K)|exact Hx].
    + intros l k w s s' H K Hg. pose proof (after_part' _ _ H) as Hp. destruct (class_of _ _ Hp) as (rs & many & Hc). destruct (after_fits _ _ H) as (e & fs & Ho & Hx).
      inversion K; subst. match goal with X : scanned _ _ _ _, Y : goes _ w _ |- _ => destruct (special_word _ _ _ _ _ _ _ _ Hc X Y) as (W1 & W2 & W3) end.
      rewrite (Hclass l k rs many Hc). eexists. apply sn_chars with (w := w).
      * split; [exact Hg|]. split; [exact W2|]. destruct many.
        -- split; [discriminate|]. destruct (p_rest s') as [|c r] eqn:Er; [left; reflexivity|]. right. right. exists c, r. split; [reflexivity|].
           cbn [ok ok_p hd_error] in *. rewrite Hc in Ho. destruct (has rs c) eqn:Eh; [exfalso; eapply apart_has; eauto|reflexivity].
        -- rewrite (W3 eq_refl). split; [intros m E; injection E as <-; cbn; lia|]. right. left. reflexivity.
      * intros (m & E & L). injection E as <-. destruct w; [congruence|cbn in L; lia].
Qed.
End Table.

(** ** Computing a table *)
Section Compute.
Variable class : str -> option (ranges * bool).
Variable rules : list rule.
Definition add_range (x : N * N) (rs : ranges) : ranges := if existsb (fun y => N.eqb (fst x) (fst y) && N.eqb (snd x) (snd y)) rs then rs else x :: rs.
Definition union (a b : ranges) : ranges := fold_right add_range b a.
(** What the references in a construct may be followed by. *)
Section Uses.
Variable tbl : list (str * info).
Fixpoint uses_p (p : primary) (e : bool) (fs : ranges) : list (str * (bool * ranges)) :=
  let uses_t (t : term_ primary) (e : bool) (fs : ranges) :=
    uses_p (f_prim (t_factor t)) e ((if N.ltb 1 (f_rep (t_factor t)) then first_f class tbl (t_factor t) else []) ++ fs) in
  let uses_s := fix go ts (e : bool) fs :=
    match ts with
    | [] => []
    | t :: ts => uses_t t (null_s tbl ts && e) (first_s class tbl ts ++ if null_s tbl ts then fs else []) ++ go ts e fs
    end in
  match p with
  | PTerminal _ _ | PEmpty _ | PSpecial _ _ => []
  | PMeta _ id => [(keyed id, (e, fs))]
  | POptional _ d | PGrouped _ d => flat_map (fun ts => uses_s ts e fs) d
  | PRepeated _ d => flat_map (fun ts => uses_s ts e (first_d class tbl d ++ fs)) d
  end.
Definition uses_d (d : definition_list) (e : bool) (fs : ranges) := uses_p (PGrouped (loc_new []) d) e fs.
Definition uses : list (str * (bool * ranges)) :=
  flat_map (fun r => match entry tbl (r_id r) with Some i => uses_d (r_defs r) (i_end i) (i_next i) | None => [] end) rules.
Fixpoint rank_p (p : primary) : nat :=
  let rank_t (t : term_ primary) := rank_p (f_prim (t_factor t)) in
  let rank_s := fold_right (fun t rest => Nat.max (rank_t t) (if null_t tbl t then rest else 0)) 0 in
  match p with
  | PTerminal _ _ | PEmpty _ | PSpecial _ _ => 0
  | PMeta _ id => match entry tbl id with Some i => S (i_rank i) | None => 0 end
  | POptional _ d | PRepeated _ d | PGrouped _ d => fold_right (fun ts m => Nat.max (rank_s ts) m) 0 d
  end.
Definition step (start : str) : list (str * info) :=
  let us := uses in
  map (fun r =>
    let k := keyed (r_id r) in
    let mine := filter (fun u => str_eqb (fst u) k) us in
    let old := entry tbl (r_id r) in
    (k, Info (null_d tbl (r_defs r)) (union (first_d class tbl (r_defs r)) (match old with Some i => i_first i | None => [] end))
          (str_eqb k (keyed start) || existsb (fun u => fst (snd u)) mine)
          (fold_right (fun u acc => union (snd (snd u)) acc) (match old with Some i => i_next i | None => [] end) mine)
          (rank_p (PGrouped (loc_new []) (r_defs r))))) rules.
End Uses.
Fixpoint rounds_of (n : nat) (start : str) (tbl : list (str * info)) : list (str * info) :=
  match n with 0 => tbl | S n => rounds_of n start (step tbl start) end.
Definition table (start : str) : list (str * info) :=
  rounds_of (4 + 3 * length rules) start (map (fun r => (keyed (r_id r), Info false [] false [] 0)) rules).
Definition ll1 (start : str) : bool := checks class (table start) rules start.
End Compute.
Lemma ll1_predictive : forall class rules cfg start, ll1 class rules start = true ->
  (forall l c rs many, class c = Some (rs, many) -> cfg l c = ScChars (has rs) (Some 1%N) (if many then None else Some 1%N)) ->
  no_forwarding cfg -> predictive rules cfg start.
Proof. intros class rules cfg start H Hc Hf. exact (check_predictive class (table class rules start) rules cfg start H Hc Hf). Qed.
