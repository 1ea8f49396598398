(** C49: the token of a tree spells its leaves. *)
From Coq Require Import String List NArith Arith Bool.
From Verif Require Import Base Tree.
Import ListNotations.

(** The tokens of the leaves met on a walk from left to right. *)
Inductive leaves : ast -> list str -> Prop :=
| lv_atom : forall l n t, leaves (AAtom l n t) [t]
| lv_complex : forall l n cs ts, leaves_all cs ts -> leaves (AComplex l n cs) ts
with leaves_all : list ast -> list str -> Prop :=
| lv_none : leaves_all [] []
| lv_more : forall c cs ts us, leaves c ts -> leaves_all cs us -> leaves_all (c :: cs) (ts ++ us).
Scheme leaves_mut := Minimality for leaves Sort Prop
  with leaves_all_mut := Minimality for leaves_all Sort Prop.

Fixpoint leaves_exist (a : ast) : exists ts, leaves a ts :=
  match a with
  | AAtom l n t => ex_intro _ [t] (lv_atom l n t)
  | AComplex l n cs =>
      let '(ex_intro _ ts H) :=
        (fix all (cs : list ast) : exists ts, leaves_all cs ts :=
           match cs with
           | [] => ex_intro _ [] lv_none
           | c :: r =>
               let '(ex_intro _ ts H) := leaves_exist c in
               let '(ex_intro _ us K) := all r in
               ex_intro _ (ts ++ us) (lv_more c r ts us H K)
           end) cs in
      ex_intro _ ts (lv_complex l n cs ts H)
  end.
Lemma fold_tokens : forall cs b, fold_left (fun buffer node => buffer ++ a_token node) cs b = b ++ concat (map a_token cs).
Proof.
  induction cs as [|c cs IH]; intros b; cbn; [symmetry; apply app_nil_r|]. rewrite IH, <- app_assoc. reflexivity.
Qed.
Lemma token_leaves : forall a ts, leaves a ts -> a_token a = concat ts.
Proof.
  apply (leaves_mut (fun a ts => a_token a = concat ts) (fun cs ts => concat (map a_token cs) = concat ts)).
  - intros l n t. cbn. symmetry. apply app_nil_r.
  - intros l n cs ts _ IH. cbn. rewrite fold_tokens. exact IH.
  - reflexivity.
  - intros c cs ts us _ IH1 _ IH2. cbn. rewrite concat_app, IH1, IH2. reflexivity.
Qed.
Theorem C49_token_spells_leaves : forall a, exists ts, leaves a ts /\ a_token a = concat ts.
Proof. exact (fun a => let '(ex_intro _ ts H) := leaves_exist a in ex_intro _ ts (conj H (token_leaves a ts H))). Qed.
Print Assumptions C49_token_spells_leaves.
Theorem C49_every_walk : forall a ts, leaves a ts -> a_token a = concat ts.
Proof. exact token_leaves. Qed.
Print Assumptions C49_every_walk.
(** A leaf is a node without children, built by [with_token] or [with_name]; everything
    built by [with_children] is an inner node. *)
Theorem C49_leaf_or_node : forall a,
  (a_is_leaf a = true <-> a_is_node a = false) /\
  (a_is_leaf a = true <-> exists l n t, a = AAtom l n t) /\
  (forall l cs, a_is_node (a_with_children l cs) = true) /\
  (forall l t, a_is_leaf (a_with_token l t) = true /\ leaves (a_with_token l t) [t]) /\
  (forall l n t, a_is_leaf (a_with_name l n t) = true /\ leaves (a_with_name l n t) [t]).
Proof.
  assert (H : forall a, a_is_leaf a = true <-> exists l n t, a = AAtom l n t).
  { intros [l n t|l n cs]; cbn; split; intros K; try reflexivity; try discriminate; eauto. destruct K as (? & ? & ? & K). discriminate. }
  exact (fun a => conj (conj (fun K => f_equal negb K)
     (fun K => eq_trans (eq_sym (negb_involutive (a_is_leaf a))) (f_equal negb K)))
     (conj (H a) (conj (fun l cs => eq_refl) (conj (fun l t => conj eq_refl (lv_atom l None t))
       (fun l n t => conj eq_refl (lv_atom l (Some n) t)))))).
Qed.
Print Assumptions C49_leaf_or_node.
Example C49_case :
  let l := loc_new [] in
  let a := a_with_children l [a_with_token l [97%N]; a_with_children l []; a_with_children l [a_with_name l [120%N] [98%N]; a_with_token l [99%N]]] in
  leaves a [[97%N]; [98%N]; [99%N]] /\ a_token a = [97%N; 98%N; 99%N].
Proof.
  split; [|reflexivity]. constructor. apply (lv_more _ _ [[97%N]]); [constructor|].
  apply (lv_more _ _ []); [constructor; constructor|].
  apply (lv_more _ _ [[98%N]; [99%N]] []); [|constructor]. constructor.
  apply (lv_more _ _ [[98%N]]); [constructor|]. apply (lv_more _ _ [[99%N]] []); constructor.
Qed.
