(** The fuel of [parse] is no part of its answer. *)
From Coq Require Import String List NArith Arith Bool Lia.
From Verif Require Import Base Ident Tokenizer Ast Lex Syntax Io Graph Machine.
Import ListNotations.
Open Scope nat_scope.

(** [b] answers what [a] answers. *)
Definition ext {A} (a b : M A) : Prop := forall r, fst (a r) <> OutOfFuel -> b r = a r.
Lemma ext_refl : forall A (a : M A), ext a a.
Proof. intros A a r _. reflexivity. Qed.
Lemma ext_no : forall A (b : M A), ext no_fuel b.
Proof. intros A b r H. contradiction H. reflexivity. Qed.
Lemma ext_bind : forall A C (a b : M A) (k h : A -> M C), ext a b -> (forall x, ext (k x) (h x)) -> ext (mbind a k) (mbind b h).
Proof.
  intros A C a b k h H1 H2 r H. unfold mbind in *. destruct (a r) as ([x|e|p|] & r') eqn:E.
  - rewrite (H1 r) by (rewrite E; discriminate). rewrite E. apply H2. exact H.
  - rewrite (H1 r) by (rewrite E; discriminate). rewrite E. reflexivity.
  - rewrite (H1 r) by (rewrite E; discriminate). rewrite E. reflexivity.
  - contradiction H. reflexivity.
Qed.
Section Fuel.
Variable debug : bool.
Variable g : graph.
Lemma ext_chars : forall f f' pred max n, f <= f' -> ext (chars_loop debug f pred max n) (chars_loop debug f' pred max n).
Proof.
  induction f as [|f IH]; intros f' pred max n Hle; [apply ext_no|]. destruct f' as [|f']; [lia|]. cbn [chars_loop].
  destruct (match max with Some m => (n <? m)%N | None => true end); [|apply ext_refl].
  apply ext_bind; [apply ext_refl|intro]. apply ext_bind; [apply ext_refl|intros [c|]]; [|apply ext_refl].
  destruct (negb (pred c)); [apply ext_refl|]. apply ext_bind; [apply ext_refl|intro]. apply ext_bind; [apply IH; lia|intro; apply ext_refl].
Qed.
Lemma ext_special : forall f f' sc def, f <= f' -> ext (special_scan debug f sc def) (special_scan debug f' sc def).
Proof.
  intros f f' [] def Hle; try apply ext_refl. cbn [special_scan]. unfold chars_scan.
  apply ext_bind; [apply ext_refl|intro]. apply ext_bind; [apply ext_refl|intro]. apply ext_bind; [apply ext_chars; exact Hle|intro; apply ext_refl].
Qed.
Lemma ext_capture : forall f f' e, f <= f' -> ext (capture_loop debug f e) (capture_loop debug f' e).
Proof.
  induction f as [|f IH]; intros f' e Hle; [apply ext_no|]. destruct f' as [|f']; [lia|]. cbn [capture_loop].
  apply ext_bind; [apply ext_refl|intro l]. destruct ((l_lines l <? l_lines e)%N || (l_columns l <? l_columns e)%N)%bool; [|apply ext_refl].
  apply ext_bind; [apply ext_refl|intro]. apply ext_bind; [apply IH; lia|intro; apply ext_refl].
Qed.
Lemma ext_rep : forall sub sub' f f' min max i temp, (forall t, ext (sub t) (sub' t)) -> f <= f' ->
  ext (rep_loop debug sub f min max i temp) (rep_loop debug sub' f' min max i temp).
Proof.
  intros sub sub' f. induction f as [|f IH]; intros f' min max i temp Hs Hle; [apply ext_no|]. destruct f' as [|f']; [lia|]. cbn [rep_loop].
  destruct (i <? max)%N; [|apply ext_refl]. apply ext_bind; [apply ext_refl|intro]. apply ext_bind; [apply ext_refl|intro].
  apply ext_bind; [apply Hs|intros ([|e] & t)]; [|apply ext_refl]. apply ext_bind; [apply ext_refl|intro].
  match goal with |- ext (if ?b then _ else _) _ => destruct b end; [apply ext_refl|]. apply IH; [exact Hs|lia].
Qed.
Lemma ext_or : forall sub sub' subs, (forall s, ext (sub s) (sub' s)) -> ext (or_loop debug sub subs) (or_loop debug sub' subs).
Proof.
  intros sub sub' subs Hs. induction subs as [|s subs IH]; [apply ext_refl|]. cbn [or_loop]. apply ext_bind; [apply ext_refl|intro].
  apply ext_bind; [apply Hs|intros ([|e] & t)]; [apply ext_refl|]. apply ext_bind; [apply ext_refl|intro]. apply ext_bind; [apply IH|intro; apply ext_refl].
Qed.
Lemma ext_except : forall sub sub' f f' addr a b evs, (forall s t, ext (sub s t) (sub' s t)) -> f <= f' ->
  ext (except_scan debug g sub f addr a b evs) (except_scan debug g sub' f' addr a b evs).
Proof.
  intros sub sub' f f' addr a b evs Hs Hle. unfold except_scan. apply ext_bind; [apply ext_refl|intro bg]. apply ext_bind; [apply ext_refl|intro].
  apply ext_bind; [apply Hs|intros ([|e] & t)]; [|apply ext_refl]. apply ext_bind; [apply ext_refl|intro]. apply ext_bind; [apply ext_refl|intro].
  apply ext_bind; [apply ext_refl|intro]. apply ext_bind; [apply ext_capture; exact Hle|intro buf]. apply ext_bind; [apply ext_refl|intro].
  match goal with |- ext (if ?b then _ else _) _ => destruct b end; [apply ext_refl|].
  set (ta := mbind (sub b []) _). set (tb := mbind (sub' b []) _).
  assert (Ht : ext ta tb). { apply ext_bind; [apply Hs|intro; apply ext_refl]. }
  intros r H. destruct (fst (ta (mr_of_text bg buf))) as [y|y|y|] eqn:E; try (rewrite (Ht (mr_of_text bg buf)) by (rewrite E; discriminate); rewrite E; reflexivity).
  contradiction H. reflexivity.
Qed.
Lemma ext_special_step : forall sub sub' f f' addr ins sc evs, (forall s t, ext (sub s t) (sub' s t)) -> f <= f' ->
  ext (special_step debug g sub f addr ins sc evs) (special_step debug g sub' f' addr ins sc evs).
Proof.
  intros sub sub' f f' addr ins sc evs Hs Hle. unfold special_step. apply ext_bind; [apply ext_refl|intro]. apply ext_bind; [apply ext_special; exact Hle|intros []]; try apply ext_refl.
  destruct (g_label g id); [|apply ext_refl]. apply ext_bind; [apply ext_refl|intro]. apply ext_bind; [apply Hs|intro; apply ext_refl].
Qed.
Lemma ext_run : forall f f' next evs, f <= f' -> ext (run debug g f next evs) (run debug g f' next evs).
Proof.
  induction f as [|f IH]; intros f' next evs Hle; [apply ext_no|]. destruct f' as [|f']; [lia|]. assert (Hf : f <= f') by lia. cbn [run].
  destruct next as [addr|]; [|apply ext_refl]. destruct (nth_error (g_instrs g) addr) as [ins|]; [|apply ext_refl].
  destruct (i_step ins).
  - apply ext_bind; [apply ext_rep; [intro; apply IH|]; exact Hf|intros [e|t]]; [apply ext_refl|apply IH; exact Hf].
  - apply ext_bind; [apply ext_or; intro; apply IH; exact Hf|intros [e|t]]; [apply ext_refl|apply IH; exact Hf].
  - apply ext_bind; [apply ext_refl|intros ([|e] & t)]; [apply IH; exact Hf|apply ext_refl].
  - apply ext_bind; [apply ext_special_step; [intros; apply IH|]; exact Hf|intros ([|e] & t)]; [apply IH; exact Hf|apply ext_refl].
  - apply IH; exact Hf.
  - apply ext_bind; [apply ext_except; [intros; apply IH|]; exact Hf|intros ([|e] & t)]; [apply IH; exact Hf|apply ext_refl].
  - destruct (g_label g id) as [a|]; [|apply ext_refl]. destruct (g_canonical g id) as [nm|]; [|apply ext_refl]. apply ext_bind; [apply ext_refl|intro].
    apply ext_bind; [apply IH; exact Hf|intros ([|e] & t)]; [|apply ext_refl]. apply ext_bind; [apply ext_refl|intro]. apply IH; exact Hf.
Qed.
End Fuel.
Lemma parse_more_fuel : forall debug g fuel fuel' m rd, fuel <= fuel' -> fst (parser_parse debug g fuel m rd) <> OutOfFuel ->
  parser_parse debug g fuel' m rd = parser_parse debug g fuel m rd.
Proof.
  intros debug g fuel fuel' m rd Hle. unfold parser_parse, machine_parse. apply ext_bind; [apply ext_run; exact Hle|intro; apply ext_refl].
Qed.
