(** Rules equal but for locations: how they are shown, and [eq_but_loc]. *)
From Coq Require Import String List NArith Arith Bool Lia.
From Verif Require Import Base Ident Tokenizer Ast Lex Syntax SpecText SpecSyntax SpecGram SpecLike SpecName LikeFacts.
Import ListNotations.
Open Scope nat_scope.

Lemma like_shown : forall L,
  (forall p p', like L eq p p' -> show_primary p = show_primary p') /\
  (forall d d', like_defs L eq d d' -> map show_single d = map show_single d') /\
  (forall s s', like_seq L eq s s' -> map show_term s = map show_term s') /\
  (forall t t', like_term L eq t t' -> show_term t = show_term t').
Proof.
  intros L. apply (like_mut L eq (fun p p' _ => show_primary p = show_primary p') (fun d d' _ => map show_single d = map show_single d')
    (fun s s' _ => map show_term s = map show_term s') (fun t t' _ => show_term t = show_term t')); intros; try reflexivity.
  - change (show_primary (POptional l d)) with ([c_lbrk] ++ show_defs d ++ [c_rbrk]). unfold show_defs. rewrite H. reflexivity.
  - change (show_primary (PRepeated l d)) with ([c_lbrace] ++ show_defs d ++ [c_rbrace]). unfold show_defs. rewrite H. reflexivity.
  - change (show_primary (PGrouped l d)) with ([c_lpar] ++ show_defs d ++ [c_rpar]). unfold show_defs. rewrite H. reflexivity.
  - cbn. assumption.
  - cbn [map]. unfold show_single at 1 3. rewrite H, H0. reflexivity.
  - cbn [map]. rewrite H, H0. reflexivity.
  - unfold show_term, show_factor. cbn [t_factor t_exc f_rep f_prim]. rewrite H. reflexivity.
  - unfold show_term, show_factor. cbn [t_factor t_exc f_rep f_prim]. rewrite H, H0. reflexivity.
Qed.
Lemma like_rules_shown : forall L rs rs', Forall2 (like_rule L eq) rs rs' -> show_rules rs = show_rules rs'.
Proof.
  intros L rs rs' H. induction H as [|r r' q q' (_ & E & D) B IH]; [reflexivity|]. unfold show_rules in *. cbn [flat_map]. rewrite IH. f_equal.
  unfold show_rule, show_defs. rewrite E, (proj1 (proj2 (like_shown L)) _ _ D). reflexivity.
Qed.
Lemma like_reloc : forall L,
  (forall p p', like L eq p p' -> reloc_primary nowhere nowhere p = reloc_primary nowhere nowhere p') /\
  (forall d d', like_defs L eq d d' -> reloc_defs nowhere nowhere d = reloc_defs nowhere nowhere d') /\
  (forall s s', like_seq L eq s s' -> reloc_single nowhere nowhere s = reloc_single nowhere nowhere s') /\
  (forall t t', like_term L eq t t' -> reloc_term nowhere nowhere t = reloc_term nowhere nowhere t').
Proof.
  intros L. apply (like_mut L eq (fun p p' _ => reloc_primary nowhere nowhere p = reloc_primary nowhere nowhere p')
    (fun d d' _ => reloc_defs nowhere nowhere d = reloc_defs nowhere nowhere d')
    (fun s s' _ => reloc_single nowhere nowhere s = reloc_single nowhere nowhere s') (fun t t' _ => reloc_term nowhere nowhere t = reloc_term nowhere nowhere t')); intros; try reflexivity.
  - change (POptional (nowhere l) (reloc_defs nowhere nowhere d) = POptional (nowhere l') (reloc_defs nowhere nowhere d')). rewrite H. reflexivity.
  - change (PRepeated (nowhere l) (reloc_defs nowhere nowhere d) = PRepeated (nowhere l') (reloc_defs nowhere nowhere d')). rewrite H. reflexivity.
  - change (PGrouped (nowhere l) (reloc_defs nowhere nowhere d) = PGrouped (nowhere l') (reloc_defs nowhere nowhere d')). rewrite H. reflexivity.
  - subst. reflexivity.
  - unfold reloc_defs in *. cbn [map]. rewrite H, H0. reflexivity.
  - unfold reloc_single in *. cbn [map]. rewrite H, H0. reflexivity.
  - unfold reloc_term, reloc_factor. cbn [t_factor t_exc f_rep f_prim]. rewrite H. reflexivity.
  - unfold reloc_term, reloc_factor. cbn [t_factor t_exc f_rep f_prim option_map]. rewrite H, H0. reflexivity.
Qed.
Lemma like_but_loc : forall L rs rs', Forall2 (like_rule L eq) rs rs' -> Forall2 eq_but_loc rs rs'.
Proof.
  intros L rs rs' H. induction H as [|r r' q q' (_ & E & D) B IH]; constructor; [|exact IH].
  unfold eq_but_loc, reloc_rule. rewrite E, (proj1 (proj2 (like_reloc L)) _ _ D). reflexivity.
Qed.

(** ** A renamed answer is determined *)
Lemma renamed_one : forall n1 n2 l a b, n1 <> of_string "<unknown>" -> renamed_place n1 n2 l a -> renamed_place n1 n2 l b -> a = b.
Proof.
  intros n1 n2 l a b N [(E & ->)|(-> & ->)] [(E' & ->)|(K & ->)]; try reflexivity.
  - subst l. exfalso. apply N. rewrite <- E. reflexivity.
  - exfalso. apply N. rewrite <- E'. reflexivity.
Qed.
Section One.
Variable L : location -> location -> Prop.
Hypothesis one : forall l a b, L l a -> L l b -> a = b.
Lemma like_one :
  (forall p p', like L eq p p' -> forall q, like L eq p q -> p' = q) /\
  (forall d d', like_defs L eq d d' -> forall q, like_defs L eq d q -> d' = q) /\
  (forall s s', like_seq L eq s s' -> forall q, like_seq L eq s q -> s' = q) /\
  (forall t t', like_term L eq t t' -> forall q, like_term L eq t q -> t' = q).
Proof.
  apply (like_mut L eq (fun p p' _ => forall q, like L eq p q -> p' = q) (fun d d' _ => forall q, like_defs L eq d q -> d' = q)
    (fun s s' _ => forall q, like_seq L eq s q -> s' = q) (fun t t' _ => forall q, like_term L eq t q -> t' = q)); intros;
    match goal with K : ?R ?a ?x |- _ = ?x => inversion K; subst end; f_equal; eauto; try (f_equal; eauto; f_equal; eauto).
Qed.
Lemma rules_one : forall rs a, Forall2 (like_rule L eq) rs a -> forall b, Forall2 (like_rule L eq) rs b -> a = b.
Proof.
  intros rs a H. induction H as [|r r' q q' (A & E & D) B IH]; intros b K; inversion K as [|r0 r2 q0 q2 (A2 & E2 & D2) B2]; subst; [reflexivity|].
  f_equal; [|apply IH; exact B2]. destruct r as [l i d], r' as [l' i' d'], r2 as [l2 i2 d2]. cbn in *. subst i' i2.
  rewrite (one _ _ _ A A2), (proj1 (proj2 like_one) _ _ D _ D2). reflexivity.
Qed.
End One.
