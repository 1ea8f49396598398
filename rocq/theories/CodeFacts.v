(** What [LexGraph::compile] puts into the graph. *)
From Coq Require Import String List NArith Arith Bool Lia.
From Verif Require Import Base Ident Tokenizer Ast Lex Syntax Io Graph Machine SpecText SpecSyntax SpecTree SpecParse TextFacts IoFacts SyntaxFacts ShowFacts.
Import ListNotations.
Open Scope nat_scope.

(** Induction over trees. *)
Section PrimaryInd.
Variable P : primary -> Prop.
Definition P_exc (o : option factor) : Prop := match o with Some e => P (f_prim e) | None => True end.
Definition P_term (t : term) : Prop := P (f_prim (t_factor t)) /\ P_exc (t_exc t).
Hypothesis Hopt : forall l d, Forall (Forall P_term) d -> P (POptional l d).
Hypothesis Hrep : forall l d, Forall (Forall P_term) d -> P (PRepeated l d).
Hypothesis Hgrp : forall l d, Forall (Forall P_term) d -> P (PGrouped l d).
Hypothesis Hmeta : forall l id, P (PMeta l id).
Hypothesis Hterm : forall l s, P (PTerminal l s).
Hypothesis Hspec : forall l s, P (PSpecial l s).
Hypothesis Hempty : forall l, P (PEmpty l).
Fixpoint primary_nested (p : primary) : P p :=
  let on_term (t : term) : P_term t :=
    conj (primary_nested (f_prim (t_factor t)))
      (match t_exc t as o return P_exc o with
       | Some e => primary_nested (f_prim e)
       | None => I
       end) in
  let on_seq := fix on_seq (ts : list term) : Forall P_term ts :=
    match ts with [] => Forall_nil _ | t :: r => Forall_cons _ (on_term t) (on_seq r) end in
  let on_defs := fix on_defs (ds : list (list term)) : Forall (Forall P_term) ds :=
    match ds with [] => Forall_nil _ | t :: r => Forall_cons _ (on_seq t) (on_defs r) end in
  match p with
  | POptional l d => Hopt l d (on_defs d)
  | PRepeated l d => Hrep l d (on_defs d)
  | PGrouped l d => Hgrp l d (on_defs d)
  | PMeta l id => Hmeta l id
  | PTerminal l s => Hterm l s
  | PSpecial l s => Hspec l s
  | PEmpty l => Hempty l
  end.
End PrimaryInd.

Section Code.
Variable cfg : config.
(** [code L n i next]: the instructions of [L] from [i] on do [n] and go on at [next]. *)
Definition at_ (L : list instr) (i : nat) (next : option nat) (st : step) (def : location) (sym : str) : Prop :=
  nth_error L i = Some (Instr next sym def st).
Inductive code (L : list instr) : node -> nat -> option nat -> Prop :=
| cd_empty : forall l i next, at_ L i next StEmpty l (of_string "EMPTY") -> code L (NPrim (PEmpty l)) i next
| cd_terminal : forall l w i next, at_ L i next (StTerminal w) l (in_quotes w) -> code L (NPrim (PTerminal l w)) i next
| cd_special : forall l c i next, nth_error L i = Some (Instr next (scanner_symbol (cfg l c)) l (StSpecial (cfg l c))) ->
    code L (NPrim (PSpecial l c)) i next
| cd_meta : forall l id i next, at_ L i next (StAlias id) l id -> code L (NPrim (PMeta l id)) i next
| cd_optional : forall l d i next sub, at_ L i next (StRepetition 0 1 sub) l (show_primary (POptional l d)) -> code L (NDefs d) sub None ->
    code L (NPrim (POptional l d)) i next
| cd_repeated : forall l d i next sub, at_ L i next (StRepetition 0 u32_max sub) l (show_primary (PRepeated l d)) -> code L (NDefs d) sub None ->
    code L (NPrim (PRepeated l d)) i next
| cd_grouped : forall l d i next, code L (NDefs d) i None -> code L (NPrim (PGrouped l d)) i next
| cd_factor_one : forall p i next, code L (NPrim p) i next -> code L (NFactor (Factor 1 p)) i next
| cd_factor_many : forall n p i next sub l, n <> 1%N -> at_ L i next (StRepetition n n sub) l (show_factor (Factor n p)) ->
    code L (NPrim p) sub None -> code L (NFactor (Factor n p)) i next
| cd_term_plain : forall f i next, code L (NFactor f) i next -> code L (NTerm (Term f None)) i next
| cd_term_except : forall f e i next fa ex l, at_ L i next (StExcept fa ex) l (show_term (Term f (Some e))) ->
    code L (NFactor f) fa None -> code L (NFactor e) ex None -> code L (NTerm (Term f (Some e))) i next
| cd_seq_one : forall t i next, code L (NTerm t) i next -> code L (NSeq [t]) i next
| cd_seq_more : forall t t2 ts i j next, code L (NTerm t) i (Some j) -> code L (NSeq (t2 :: ts)) j next ->
    code L (NSeq (t :: t2 :: ts)) i next
| cd_defs_one : forall ts i, code L (NSeq ts) i None -> code L (NDefs [ts]) i None
| cd_defs_none : forall i l, at_ L i None (StOr []) l [] -> code L (NDefs []) i None
| cd_defs : forall d1 d2 ds i l subs, at_ L i None (StOr subs) l (defs_name cfg (d1 :: d2 :: ds)) -> codes L (d1 :: d2 :: ds) subs ->
    code L (NDefs (d1 :: d2 :: ds)) i None
with codes (L : list instr) : list (list term) -> list nat -> Prop :=
| cds_nil : codes L [] []
| cds_cons : forall d ds i is, code L (NSeq d) i None -> codes L ds is -> codes L (d :: ds) (i :: is).
Scheme code_mut := Minimality for code Sort Prop with codes_mut := Minimality for codes Sort Prop.
Combined Scheme code_codes_mut from code_mut, codes_mut.

Lemma at_more : forall L M i next st def sym, at_ L i next st def sym -> at_ (L ++ M) i next st def sym.
Proof.
  intros L M i next st def sym H. unfold at_ in *. rewrite nth_error_app1; [exact H|]. apply nth_error_Some. congruence.
Qed.
Lemma code_more : forall L M, (forall n i next, code L n i next -> code (L ++ M) n i next) /\
  (forall ds is, codes L ds is -> codes (L ++ M) ds is).
Proof.
  intros L M. apply code_codes_mut; intros;
    try (econstructor; eauto using at_more; fail).
  - apply cd_special. rewrite nth_error_app1; [exact H|]. apply nth_error_Some. congruence.
Qed.

(** The symbol of the first instruction of a construct. *)
Definition node_name (n : node) : str :=
  match n with
  | NDefs d => defs_name cfg d
  | NSeq ts => seq_name cfg ts
  | NTerm t => term_name cfg t
  | NFactor f => factor_name cfg f
  | NPrim p => prim_name cfg p
  | _ => []
  end.
Lemma code_symbol : forall L n i next, code L n i next -> exists ins, nth_error L i = Some ins /\ i_symbol ins = node_name n.
Proof.
  intros L n i next H. apply (code_mut L (fun n i _ => exists ins, nth_error L i = Some ins /\ i_symbol ins = node_name n) (fun _ _ => True)) with (o := next); auto; clear;
    intros; try (eexists; split; [eassumption|reflexivity]); auto.
  - eexists. split; [eassumption|]. cbn. unfold factor_name. cbn. apply N.eqb_neq in H. rewrite H. reflexivity.
Qed.
Lemma listing_parallel : forall ws, listing ws = parallel_notation ws (of_string "or").
Proof.
  assert (K : forall ws sep, concat (map (fun w => w ++ sep) ws) = match ws with [] => [] | _ => sep_concat sep ws ++ sep end).
  { induction ws as [|w ws IH]; intros sep; [reflexivity|]. cbn [map concat]. rewrite IH. destruct ws as [|w2 ws]; [cbn; rewrite app_nil_r; reflexivity|].
    change (sep_concat sep (w :: w2 :: ws)) with (w ++ sep ++ sep_concat sep (w2 :: ws)). rewrite <- !app_assoc. reflexivity. }
  intros [|a [|b [|c ws]]]; try reflexivity. unfold listing, parallel_notation.
  destruct (exists_last (l := c :: ws) ltac:(discriminate)) as (r & z & E). rewrite E.
  change (a :: b :: r ++ [z]) with ((a :: b :: r) ++ [z]). rewrite rev_app_distr, removelast_last, last_last. cbn [app rev].
  destruct (rev r ++ [b]) as [|x y] eqn:Ex; [destruct (rev r); discriminate|]. cbn [app]. destruct (y ++ [a]) as [|x2 y2] eqn:Ey; [destruct y; discriminate|].
  replace (rev (x :: x2 :: y2)) with (a :: b :: r).
  - rewrite K. rewrite <- !app_assoc. reflexivity.
  - rewrite <- Ey. change (x :: y ++ [a]) with ((x :: y) ++ [a]). rewrite <- Ex, rev_app_distr. cbn. rewrite rev_app_distr, rev_involutive. reflexivity.
Qed.
Lemma in_quotes_debug : forall w, in_quotes w = debug_str w.
Proof.
  intros w. unfold in_quotes, debug_str. f_equal. f_equal. rewrite flat_map_concat_map. f_equal. apply map_ext. intros c.
  destruct (N.eqb_spec c 34) as [->|]; [reflexivity|]. destruct (N.eqb_spec c 92) as [->|]; reflexivity.
Qed.

Lemma bind_ok : forall {A B} (x : res A) (f : A -> res B) b, (let? a := x in f a) = Ok b -> exists a, x = Ok a /\ f a = Ok b.
Proof. intros A B [a|e|p|] f b H; try discriminate. exists a. auto. Qed.
Lemma push_ok : forall L x r, push_instr L x = Ok r -> r = (L ++ [x], length L).
Proof. intros L x r H. injection H as <-. reflexivity. Qed.
Lemma nth_last : forall {A} (L : list A) x, nth_error (L ++ [x]) (length L) = Some x.
Proof. intros A L x. rewrite nth_error_app2, Nat.sub_diag by lia. reflexivity. Qed.

(** What a registering function promises. *)
Definition registers (n : node) (x : list instr -> option nat -> res (list instr * nat)) : Prop :=
  forall L next L' i, x L next = Ok (L', i) -> exists M, L' = L ++ M /\ code L' n i next.
Lemma registers_grow : forall n x L next L' i N, registers n x -> x L next = Ok (L', i) ->
  code (L' ++ N) n i next.
Proof. intros n x L next L' i N H Hx. destruct (H _ _ _ _ Hx) as (M & _ & Hc). apply (code_more L' N). exact Hc. Qed.
Lemma reg_factor_ok : forall f, registers (NPrim (f_prim f)) (reg_primary cfg (f_prim f)) -> registers (NFactor f) (reg_factor cfg f).
Proof.
  intros [n p] H L next L' i Hx. unfold reg_factor in Hx. cbn [f_rep f_prim] in *. destruct (N.eqb_spec n 1) as [->|Hn].
  - destruct (H _ _ _ _ Hx) as (M & HM & Hc). exists M. split; [exact HM|]. constructor. exact Hc.
  - apply bind_ok in Hx as ((L1 & sub) & H1 & H2). apply push_ok in H2. injection H2 as -> ->.
    pose proof (registers_grow _ _ _ _ _ _ [Instr next (show_factor (Factor n p)) (p_loc p) (StRepetition n n sub)] H H1) as Hc.
    destruct (H _ _ _ _ H1) as (M & -> & _). eexists. split; [rewrite <- app_assoc; reflexivity|].
    eapply cd_factor_many; [exact Hn| |exact Hc]. apply nth_last.
Qed.
Lemma reg_term_ok : forall t, P_term (fun p => registers (NPrim p) (reg_primary cfg p)) t -> registers (NTerm t) (reg_term cfg t).
Proof.
  intros [f [e|]] (Hf & He) L next L' i Hx; unfold reg_term in Hx; cbn [t_exc t_factor] in *.
  - apply bind_ok in Hx as ((L1 & fa) & H1 & Hx). apply bind_ok in Hx as ((L2 & ex) & H2 & H3). apply push_ok in H3. injection H3 as -> ->.
    destruct (reg_factor_ok _ Hf _ _ _ _ H1) as (M1 & -> & C1). destruct (reg_factor_ok _ He _ _ _ _ H2) as (M2 & -> & C2).
    eexists. split; [rewrite <- !app_assoc; reflexivity|]. eapply cd_term_except.
    + apply nth_last.
    + apply code_more. apply code_more. exact C1.
    + apply code_more. exact C2.
  - destruct (reg_factor_ok _ Hf _ _ _ _ Hx) as (M & HM & Hc). exists M. split; [exact HM|]. constructor. exact Hc.
Qed.
Lemma reg_single_ok : forall ts, Forall (P_term (fun p => registers (NPrim p) (reg_primary cfg p))) ts -> registers (NSeq ts) (reg_single cfg ts).
Proof.
  intros ts HF L next L' i Hx. destruct ts as [|t ts]; [discriminate|]. unfold reg_single in Hx.
  apply bind_ok in Hx as ((L1 & o) & H1 & Hx). destruct o as [idx|]; [|discriminate]. injection Hx as -> ->.
  revert t HF L next L' i H1. induction ts as [|t2 ts IH]; intros t HF L next L' i H1.
  - cbn in H1. apply bind_ok in H1 as ((L1 & idx) & H1 & H2). injection H2 as -> ->.
    destruct (reg_term_ok _ (Forall_inv HF) _ _ _ _ H1) as (M & HM & Hc). exists M. split; [exact HM|]. constructor. exact Hc.
  - change (reg_terms cfg (t :: t2 :: ts) L next) with
      (let? (steps, next) := reg_terms cfg (t2 :: ts) L next in let? (steps, idx) := reg_term cfg t steps next in Ok (steps, Some idx)) in H1.
    apply bind_ok in H1 as ((L1 & o) & H1 & H2). apply bind_ok in H2 as ((L2 & idx) & H2 & H3). injection H3 as -> ->.
    destruct o as [j|].
    2:{ exfalso. cbn in H1. apply bind_ok in H1 as ((? & ?) & _ & H1). apply bind_ok in H1 as ((? & ?) & _ & H1). discriminate. }
    destruct (IH t2 (Forall_inv_tail HF) _ _ _ _ H1) as (M1 & -> & C1).
    destruct (reg_term_ok _ (Forall_inv HF) _ _ _ _ H2) as (M2 & -> & C2).
    eexists. split; [rewrite <- app_assoc; reflexivity|]. eapply cd_seq_more; [exact C2|]. apply code_more. exact C1.
Qed.
Lemma reg_alts_ok : forall ds, Forall (Forall (P_term (fun p => registers (NPrim p) (reg_primary cfg p)))) ds ->
  forall L L' subs syms, reg_alts cfg ds L None = Ok (L', subs, syms) -> exists M, L' = L ++ M /\ codes L' ds subs /\ syms = map (seq_name cfg) ds.
Proof.
  induction ds as [|d ds IH]; intros HF L L' subs syms Hx.
  - cbn in Hx. injection Hx as <- <- <-. exists []. rewrite app_nil_r. split; [reflexivity|]. split; [constructor|reflexivity].
  - cbn in Hx. apply bind_ok in Hx as ((L1 & idx) & H1 & H2). destruct (nth_error L1 idx) as [ins|] eqn:Ei; [|discriminate].
    apply bind_ok in H2 as (((L2 & subs2) & syms2) & H2 & H3). injection H3 as -> <- <-.
    destruct (reg_single_ok _ (Forall_inv HF) _ _ _ _ H1) as (M1 & -> & C1).
    destruct (IH (Forall_inv_tail HF) _ _ _ _ H2) as (M2 & -> & C2 & ->).
    eexists. split; [rewrite <- app_assoc; reflexivity|]. split; [constructor; [|exact C2]; apply code_more; exact C1|].
    destruct (code_symbol _ _ _ _ C1) as (ins2 & E2 & E3). cbn [map node_name] in *. congruence.
Qed.
Lemma reg_defs_ok' : forall d, Forall (Forall (P_term (fun p => registers (NPrim p) (reg_primary cfg p)))) d ->
  forall L L' i, reg_defs cfg d L None = Ok (L', i) -> exists M, L' = L ++ M /\ code L' (NDefs d) i None.
Proof.
  intros d HF L L' i Hx. destruct d as [|d1 [|d2 ds]].
  - unfold reg_defs in Hx. cbn in Hx. destruct (rev L); [discriminate|]. apply push_ok in Hx. injection Hx as -> ->.
    eexists. split; [reflexivity|]. eapply cd_defs_none. apply nth_last.
  - destruct (reg_single_ok _ (Forall_inv HF) _ _ _ _ Hx) as (M & HM & Hc). exists M. split; [exact HM|]. constructor. exact Hc.
  - unfold reg_defs in Hx. apply bind_ok in Hx as (((L1 & subs) & syms) & H1 & H2).
    destruct (rev L1); [discriminate|]. apply push_ok in H2. injection H2 as -> ->.
    destruct (reg_alts_ok _ HF _ _ _ _ H1) as (M & -> & C & ->). eexists. split; [rewrite <- app_assoc; reflexivity|].
    rewrite <- listing_parallel. eapply cd_defs; [apply nth_last|]. apply code_more. exact C.
Qed.
Lemma reg_primary_optional : forall def d L next, reg_primary cfg (POptional def d) L next =
  let? (steps, sub) := reg_defs cfg d L None in
  push_instr steps (Instr next (show_primary (POptional def d)) def (StRepetition 0 1 sub)).
Proof. reflexivity. Qed.
Lemma reg_primary_repeated : forall def d L next, reg_primary cfg (PRepeated def d) L next =
  let? (steps, sub) := reg_defs cfg d L None in
  push_instr steps (Instr next (show_primary (PRepeated def d)) def (StRepetition 0 u32_max sub)).
Proof. reflexivity. Qed.
Lemma reg_primary_grouped : forall def d L next, reg_primary cfg (PGrouped def d) L next = reg_defs cfg d L None.
Proof. reflexivity. Qed.
Lemma reg_primary_ok : forall p, registers (NPrim p) (reg_primary cfg p).
Proof.
  induction p as [l d IH|l d IH|l d IH|l id|l s|l s|l] using primary_nested; intros L next L' i Hx.
  - rewrite reg_primary_optional in Hx. apply bind_ok in Hx as ((L1 & sub) & H1 & H2). apply push_ok in H2. injection H2 as -> ->.
    destruct (reg_defs_ok' _ IH _ _ _ H1) as (M & -> & C). eexists. split; [rewrite <- app_assoc; reflexivity|].
    eapply cd_optional; [apply nth_last|]. apply code_more. exact C.
  - rewrite reg_primary_repeated in Hx. apply bind_ok in Hx as ((L1 & sub) & H1 & H2). apply push_ok in H2. injection H2 as -> ->.
    destruct (reg_defs_ok' _ IH _ _ _ H1) as (M & -> & C). eexists. split; [rewrite <- app_assoc; reflexivity|].
    eapply cd_repeated; [apply nth_last|]. apply code_more. exact C.
  - rewrite reg_primary_grouped in Hx. destruct (reg_defs_ok' _ IH _ _ _ Hx) as (M & -> & C). eexists. split; [reflexivity|]. constructor. exact C.
  - apply push_ok in Hx. injection Hx as -> ->. eexists. split; [reflexivity|]. constructor. apply nth_last.
  - apply push_ok in Hx. injection Hx as -> ->. eexists. split; [reflexivity|]. constructor. rewrite <- in_quotes_debug. apply nth_last.
  - apply push_ok in Hx. injection Hx as -> ->. eexists. split; [reflexivity|]. constructor. apply nth_last.
  - apply push_ok in Hx. injection Hx as -> ->. eexists. split; [reflexivity|]. constructor. apply nth_last.
Qed.
Lemma reg_defs_ok : forall d L L' i, reg_defs cfg d L None = Ok (L', i) -> exists M, L' = L ++ M /\ code L' (NDefs d) i None.
Proof.
  intros d. apply reg_defs_ok'. apply Forall_forall. intros ts _. apply Forall_forall. intros t _. split; [apply reg_primary_ok|].
  destruct (t_exc t); [apply reg_primary_ok|exact I].
Qed.

(** ** Labels *)
(** The labels and names of the rules [done], the instructions being [L]. *)
Definition linked (rs : list rule) (g : graph) : Prop := forall k,
  (forall r, In r rs -> keyed (r_id r) = k -> exists i, lookup k (g_labels g) = Some i /\ code (g_instrs g) (NDefs (r_defs r)) i None /\
     lookup k (g_names g) = Some (r_id r)) /\
  (forall r, In r rs -> 36%N :: keyed (r_id r) = k -> exists i, lookup k (g_labels g) = Some i /\
     at_ (g_instrs g) i None (StAlias (r_id r)) (r_loc r) (r_id r)) /\
  ((forall r, In r rs -> keyed (r_id r) <> k) -> lookup k (g_names g) = None) /\
  ((forall r, In r rs -> keyed (r_id r) <> k) -> (forall r, In r rs -> 36%N :: keyed (r_id r) <> k) -> lookup k (g_labels g) = None).
(** No rule has a name starting with a dollar sign, no two rules have the same name. *)
Definition plain_names (rs : list rule) : Prop := forall r, In r rs -> forall k, keyed (r_id r) <> 36%N :: k.
Lemma linked_step : forall rs r g L idx, linked rs g -> plain_names (rs ++ [r]) ->
  (forall r', In r' rs -> keyed (r_id r') <> keyed (r_id r)) ->
  (exists M, L = g_instrs g ++ M) -> code L (NDefs (r_defs r)) idx None ->
  linked (rs ++ [r]) (Graph (L ++ [Instr None (r_id r) (r_loc r) (StAlias (r_id r))])
     (insert (36%N :: keyed (r_id r)) (length L) (insert (keyed (r_id r)) idx (g_labels g)))
     (insert (keyed (r_id r)) (r_id r) (g_names g))).
Proof.
  intros rs r g L idx HL HP HD (M & HM) HC k. destruct (HL k) as (A & B & C & D). cbn [g_instrs g_labels g_names].
  rewrite !lookup_insert. assert (HPr : forall k, keyed (r_id r) <> 36%N :: k) by (intros k'; apply HP; apply in_elt).
  split; [|split; [|split]].
  - intros r' Hin Hk. apply in_app_iff in Hin as [Hin|[<-|[]]].
    + destruct (A r' Hin Hk) as (i & A1 & A2 & A3).
      replace (str_eqb k (36%N :: keyed (r_id r))) with false.
      2:{ symmetry. apply str_eqb_neq. intros Z. rewrite <- Hk in Z. apply (HP r') in Z; [contradiction|]. apply in_app_iff. auto. }
      replace (str_eqb k (keyed (r_id r))) with false.
      2:{ symmetry. apply str_eqb_neq. intros Z. apply (HD r' Hin). congruence. }
      exists i. split; [exact A1|]. split; [|exact A3]. rewrite HM, <- app_assoc. apply code_more. exact A2.
    + subst k. replace (str_eqb (keyed (r_id r)) (36%N :: keyed (r_id r))) with false.
      2:{ symmetry. apply str_eqb_neq. apply HPr. }
      rewrite str_eqb_refl. exists idx. split; [reflexivity|]. split; [|reflexivity]. apply code_more. exact HC.
  - intros r' Hin Hk. apply in_app_iff in Hin as [Hin|[<-|[]]].
    + destruct (B r' Hin Hk) as (i & B1 & B2).
      replace (str_eqb k (36%N :: keyed (r_id r))) with false.
      2:{ symmetry. apply str_eqb_neq. intros Z. rewrite <- Hk in Z. injection Z as Z. apply (HD r' Hin). exact Z. }
      replace (str_eqb k (keyed (r_id r))) with false.
      2:{ symmetry. apply str_eqb_neq. intros Z. rewrite <- Hk in Z. symmetry in Z. apply HPr in Z. contradiction. }
      exists i. split; [exact B1|]. rewrite HM, <- app_assoc. apply at_more. exact B2.
    + subst k. rewrite str_eqb_refl. exists (length L). split; [reflexivity|]. apply nth_last.
  - intros H. replace (str_eqb k (keyed (r_id r))) with false.
    + apply C. intros r' Hin. apply H. apply in_app_iff. auto.
    + symmetry. apply str_eqb_neq. intros Z. apply (H r); [apply in_elt|congruence].
  - intros H1 H2. replace (str_eqb k (36%N :: keyed (r_id r))) with false.
    2:{ symmetry. apply str_eqb_neq. intros Z. apply (H2 r); [apply in_elt|congruence]. }
    replace (str_eqb k (keyed (r_id r))) with false.
    2:{ symmetry. apply str_eqb_neq. intros Z. apply (H1 r); [apply in_elt|congruence]. }
    apply D; intros r' Hin; [apply H1|apply H2]; apply in_app_iff; auto.
Qed.
Lemma compile_rules_ok : forall sy rest done g g', linked done g -> plain_names (done ++ rest) -> no_repeat (done ++ rest) ->
  (forall r, In r (done ++ rest) -> canonical_name sy (r_id r) = Some (r_id r)) ->
  compile_rules cfg sy rest g = Ok g' -> linked (done ++ rest) g'.
Proof.
  intros sy rest. induction rest as [|r rest IH]; intros done g g' HL HP HN HC H; cbn in H.
  - injection H as <-. rewrite app_nil_r. exact HL.
  - rewrite HC in H by apply in_elt. apply bind_ok in H as ((L & idx) & H1 & H2).
    destruct (reg_defs_ok _ _ _ _ H1) as (M & HM & Hcode).
    replace (done ++ r :: rest) with ((done ++ [r]) ++ rest) in * by (rewrite <- app_assoc; reflexivity).
    eapply IH; [| | | |exact H2]; auto.
    apply linked_step; auto.
    + intros r' Hin. apply HP. apply in_app_iff. auto.
    + intros r' Hin Hk. apply In_nth_error in Hin as (j & Hj). apply (HN (length done) j r r').
      split; [|split; [|split]].
      * apply nth_error_Some. congruence.
      * rewrite <- app_assoc. rewrite nth_error_app2, Nat.sub_diag by lia. reflexivity.
      * rewrite <- app_assoc. rewrite nth_error_app1; [exact Hj|]. apply nth_error_Some. congruence.
      * apply same_name_keyed. congruence.
    + eauto.
Qed.
End Code.

Lemma no_dollar_plain : forall rs, no_dollar rs -> plain_names rs.
Proof.
  intros rs H r Hin k E. apply (H r k Hin). apply same_name_keyed. cbn. rewrite E. f_equal.
  assert (Hk : keyed (36%N :: k) = 36%N :: k) by (rewrite <- E; apply keyed_idem). injection Hk as Hk. symmetry. exact Hk.
Qed.
(** The compiled graph, in terms of names. *)
Definition faithful (cfg : config) (rs : list rule) (g : graph) : Prop := forall id,
  (forall r, names rs id r -> exists i, g_label g id = Some i /\ code cfg (g_instrs g) (NDefs (r_defs r)) i None /\
     g_canonical g id = Some (r_id r)) /\
  (forall r, In r rs -> dollar id r -> exists i, g_label g id = Some i /\ at_ (g_instrs g) i None (StAlias (r_id r)) (r_loc r) (r_id r)) /\
  (~ defined rs id -> g_canonical g id = None) /\
  (~ defined rs id -> (forall r, In r rs -> ~ dollar id r) -> g_label g id = None).
Lemma linked_faithful : forall cfg rs g, linked cfg rs g -> faithful cfg rs g.
Proof.
  intros cfg rs g H id. destruct (H (keyed id)) as (A & B & C & D). split; [|split; [|split]].
  - intros r (Hin & Hs). apply same_name_keyed in Hs. apply A; auto.
  - intros r Hin Hs. apply same_name_keyed in Hs. apply B; auto.
  - intros Hu. apply C. intros r Hin E. apply Hu. exists r. split; [exact Hin|]. apply same_name_keyed. auto.
  - intros Hu Hd. apply D.
    + intros r Hin E. apply Hu. exists r. split; [exact Hin|]. apply same_name_keyed. auto.
    + intros r Hin E. apply (Hd r Hin). apply same_name_keyed. auto.
Qed.
Lemma compile_faithful : forall cfg rs sy g, new_syntax rs = Ok sy -> no_dollar rs -> compile cfg sy = Ok g -> faithful cfg rs g.
Proof.
  intros cfg rs sy g Hs Hd Hg. apply linked_faithful. destruct (lookup_faithful _ _ Hs) as (Hr & _ & Hq).
  destruct (proj1 (accepted_iff rs) (ex_intro _ sy Hs)) as (_ & Hn & _).
  unfold compile in Hg. rewrite Hr in Hg. change rs with ([] ++ rs). eapply compile_rules_ok; [| | | |exact Hg].
  - intros k. cbn. repeat split; intros; try contradiction; reflexivity.
  - apply no_dollar_plain. exact Hd.
  - exact Hn.
  - intros r Hin. specialize (Hq (r_id r)). apply In_nth_error in Hin as (i & Hi).
    destruct (get_syntax_rule sy (r_id r)) as [[r'|]| | |]; try contradiction.
    + destruct Hq as (Hc & j & Hj & HU). rewrite Hc. f_equal. f_equal. assert (i = j) by (apply (HU i r Hi); apply same_name_keyed; reflexivity).
      subst j. cbn in Hi. congruence.
    + destruct Hq as (_ & Hu). exfalso. apply Hu. exists r. split; [eapply nth_error_In; eauto|apply same_name_keyed; reflexivity].
Qed.

(** Compiling gives a graph when no definition is empty. *)
Scheme filled_m := Minimality for filled Sort Prop with filled_defs_m := Minimality for filled_defs Sort Prop
  with filled_seq_m := Minimality for filled_seq Sort Prop with filled_t_m := Minimality for filled_t Sort Prop.
Combined Scheme filled_mut from filled_m, filled_defs_m, filled_seq_m, filled_t_m.

Section Total.
Variable cfg : config.
Definition lands (x : res (list instr * nat)) : Prop := exists L i, x = Ok (L, i) /\ i < length L.
Lemma lands_push : forall L x, lands (push_instr L x).
Proof. intros L x. exists (L ++ [x]), (length L). split; [reflexivity|]. rewrite app_length. cbn. lia. Qed.
Lemma lands_bind : forall x k, lands x -> (forall L i, i < length L -> lands (k L i)) -> lands (let? (L, i) := x in k L i).
Proof. intros x k (L & i & -> & Hi) Hk. cbn. apply Hk. exact Hi. Qed.
Definition reg_factor_lands : forall f, (forall L next, lands (reg_primary cfg (f_prim f) L next)) ->
  forall L next, lands (reg_factor cfg f L next).
Proof.
  intros [n p] H L next. unfold reg_factor. cbn [f_rep f_prim] in *. destruct (N.eqb n 1); [apply H|].
  apply lands_bind; [apply H|]. intros. apply lands_push.
Qed.
Lemma filled_lands :
  (forall p, filled p -> forall L next, lands (reg_primary cfg p L next)) /\
  (forall d, filled_defs d -> (forall L next, lands (reg_defs cfg d L next)) /\
     (forall L next, exists L' subs syms, reg_alts cfg d L next = Ok (L', subs, syms) /\ L' <> [])) /\
  (forall s, filled_seq s -> forall L next, exists L' i, reg_terms cfg s L next = Ok (L', Some i) /\ i < length L') /\
  (forall t, filled_t t -> forall L next, lands (reg_term cfg t L next)).
Proof.
  assert (S1 : forall s, (forall L next, exists L' i, reg_terms cfg s L next = Ok (L', Some i) /\ i < length L') ->
     forall L next, lands (reg_single cfg s L next)).
  { intros s H L next. unfold reg_single. destruct (H L next) as (L' & i & E & Hi). destruct s; [destruct (H L None) as (? & ? & Z & _); discriminate|]. rewrite E. exists L', i. split; [reflexivity|exact Hi]. }
  assert (S2 : forall L next subs syms, L <> [] -> lands (match rev L with [] => Panic PUnwrap | lst :: _ =>
      push_instr L (Instr next (parallel_notation syms (of_string "or")) (i_def lst) (StOr subs)) end)).
  { intros L next subs syms HL. destruct (rev L) eqn:E; [|apply lands_push].
    apply (f_equal (@rev _)) in E. rewrite rev_involutive in E. contradiction. }
  apply filled_mut.
  - intros l d _ (H & _) L next. rewrite reg_primary_optional. apply lands_bind; [apply H|]. intros. apply lands_push.
  - intros l d _ (H & _) L next. rewrite reg_primary_repeated. apply lands_bind; [apply H|]. intros. apply lands_push.
  - intros l d _ (H & _) L next. rewrite reg_primary_grouped. apply H.
  - intros. apply lands_push.
  - intros. apply lands_push.
  - intros. apply lands_push.
  - intros. apply lands_push.
  - intros s _ H. specialize (S1 s H). split; [exact S1|].
    intros L next. cbn. destruct (S1 L next) as (L' & i & -> & Hi). cbn. destruct (nth_error L' i) eqn:E.
    + eexists _, _, _. split; [reflexivity|]. intros ->. destruct i; discriminate.
    + apply nth_error_None in E. lia.
  - intros s d _ H Hd (_ & Ha). specialize (S1 s H).
    assert (K : forall L next, exists L' subs syms, reg_alts cfg (s :: d) L next = Ok (L', subs, syms) /\ L' <> []).
    { intros L next. cbn. destruct (S1 L next) as (L' & i & -> & Hi). cbn. destruct (nth_error L' i) eqn:E.
      - destruct (Ha L' next) as (L2 & subs & syms & -> & HL2). cbn. eauto 6.
      - apply nth_error_None in E. lia. }
    split; [|exact K]. intros L next. destruct d as [|d1 ds]; [apply S1|].
    unfold reg_defs. destruct (K L next) as (L' & subs & syms & -> & HL). cbv beta iota. apply S2. exact HL.
  - intros t _ H L next. cbn. destruct (H L next) as (L' & i & -> & Hi). cbn. eauto.
  - intros t s _ H _ Hs L next. cbn. destruct (Hs L next) as (L1 & j & -> & _). cbn. destruct (H L1 (Some j)) as (L' & i & -> & Hi). cbn. eauto.
  - intros f _ H L next. unfold reg_term. cbn [t_exc t_factor]. apply reg_factor_lands. exact H.
  - intros f e _ Hf _ He L next. unfold reg_term. cbn [t_exc t_factor]. apply lands_bind; [apply reg_factor_lands; exact Hf|].
    intros. apply lands_bind; [apply reg_factor_lands; exact He|]. intros. apply lands_push.
Qed.
Lemma compile_total : forall rs sy, new_syntax rs = Ok sy -> Forall (fun r => filled_defs (r_defs r)) rs -> exists g, compile cfg sy = Ok g.
Proof.
  intros rs sy Hs HF. destruct (lookup_faithful _ _ Hs) as (Hr & _ & Hq). unfold compile. rewrite Hr.
  generalize (Graph [] [] []). assert (HI : forall r, In r rs -> exists n, canonical_name sy (r_id r) = Some n).
  { intros r Hin. specialize (Hq (r_id r)). destruct (get_syntax_rule sy (r_id r)) as [[r'|]| | |]; try contradiction.
    - destruct Hq as (-> & _). eauto.
    - destruct Hq as (_ & Hu). exfalso. apply Hu. exists r. split; [exact Hin|apply same_name_keyed; reflexivity]. }
  clear Hs Hr Hq. induction rs as [|r rs IH]; intros g; [eexists; reflexivity|]. cbn.
  destruct (HI r (or_introl eq_refl)) as (n & ->). destruct filled_lands as (_ & Hl & _).
  destruct (proj1 (Hl _ (Forall_inv HF)) (g_instrs g) None) as (L & i & -> & _). apply IH; [exact (Forall_inv_tail HF)|].
  intros r' Hin. apply HI. right. exact Hin.
Qed.
End Total.
Lemma wf_filled : (forall p, wf_primary p -> filled p) /\ (forall f, wf_factor f -> filled (f_prim f)) /\ (forall t, wf_term t -> filled_t t) /\
  (forall s, wf_single s -> filled_seq s) /\ (forall d, wf_defs d -> filled_defs d).
Proof.
  apply wf_all_mut; intros; try (constructor; auto; fail); auto.
Qed.
