(** Two readers whose methods correspond run the machine (OwnReader.v) in correspondence,
    whatever the correspondence is. *)
From Coq Require Import String List NArith Arith Bool Lia.
From Verif Require Import Base Ident Tokenizer Ast Lex Syntax Io Graph Machine OwnReader.
Import ListNotations.
Open Scope nat_scope.

Section Rel.
Variables U1 U2 : Type.
Variable R : forall A, act U1 A -> act U2 A -> Prop.
Arguments R {A} _ _.
Definition caught {U A} (f : A -> error) (m : act U A) : act U error := fun r =>
  match m r with
  | (Ok a, r') => (Ok (f a), r')
  | (Err e, r') => (Ok e, r')
  | (Panic p, r') => (Panic p, r')
  | (OutOfFuel, r') => (OutOfFuel, r')
  end.
Record keeps : Prop := {
  kp_ret : forall A (a : A), R (uret U1 a) (uret U2 a);
  kp_fail : forall A e, R (ufail U1 (A := A) e) (ufail U2 (A := A) e);
  kp_crash : forall A p, R (ucrash U1 (A := A) p) (ucrash U2 (A := A) p);
  kp_fuel : forall A, R (uno_fuel U1 (A := A)) (uno_fuel U2 (A := A));
  kp_bind : forall A B (m1 : act U1 A) (m2 : act U2 A) (f1 : A -> act U1 B) (f2 : A -> act U2 B), R m1 m2 -> (forall a, R (f1 a) (f2 a)) ->
    R (ubind U1 m1 f1) (ubind U2 m2 f2);
  kp_catch : forall A (f : A -> error) (m1 : act U1 A) (m2 : act U2 A), R m1 m2 -> R (caught f m1) (caught f m2) }.
Record alike (o1 : methods U1) (o2 : methods U2) : Prop := {
  al_location : R (own_location U1 o1) (own_location U2 o2);
  al_mark : R (u_mark U1 o1) (u_mark U2 o2);
  al_reset : forall m, R (u_reset U1 o1 m) (u_reset U2 o2 m);
  al_unmark : forall m, R (u_unmark U1 o1 m) (u_unmark U2 o2 m);
  al_read : R (u_read U1 o1) (u_read U2 o2);
  al_is_eof : R (u_is_eof U1 o1) (u_is_eof U2 o2);
  al_prefix : forall w, R (u_prefix U1 o1 w) (u_prefix U2 o2 w);
  al_peek : forall n, R (u_peek U1 o1 n) (u_peek U2 o2 n);
  al_skip : forall n, R (u_skip U1 o1 n) (u_skip U2 o2 n) }.
Hypothesis K : keeps.
Variables (o1 : methods U1) (o2 : methods U2).
Hypothesis A : alike o1 o2.

Ltac rel := repeat (intros; match goal with
  | |- R (ubind _ _ _) (ubind _ _ _) => apply (kp_bind K)
  | |- R (uret _ _) (uret _ _) => apply (kp_ret K)
  | |- R (ufail _ _) (ufail _ _) => apply (kp_fail K)
  | |- R (ucrash _ _) (ucrash _ _) => apply (kp_crash K)
  | |- R (uno_fuel _) (uno_fuel _) => apply (kp_fuel K)
  | |- R (own_location _ _) _ => apply (al_location _ _ A)
  | |- R (u_mark _ _) _ => apply (al_mark _ _ A)
  | |- R (u_reset _ _ _) _ => apply (al_reset _ _ A)
  | |- R (u_unmark _ _ _) _ => apply (al_unmark _ _ A)
  | |- R (u_read _ _) _ => apply (al_read _ _ A)
  | |- R (u_is_eof _ _) _ => apply (al_is_eof _ _ A)
  | |- R (u_prefix _ _ _) _ => apply (al_prefix _ _ A)
  | |- R (u_peek _ _ _) _ => apply (al_peek _ _ A)
  | |- R (u_skip _ _ _) _ => apply (al_skip _ _ A)
  | H : _ |- R _ _ => solve [apply H]
  | |- context [match ?x with _ => _ end] => destruct x
  end).

Variable debug : bool.
Variable g : graph.
Lemma rel_err : forall cur, R (own_err_expected U1 g o1 cur) (own_err_expected U2 g o2 cur).
Proof.
  intros cur. unfold own_err_expected. apply (kp_bind K); [apply (al_location _ _ A)|]. intros l.
  apply (kp_catch K _ (fun a => Error_ l (MExpected match cur with Some i => match nth_error (g_instrs g) i with Some n => i_symbol n | None => of_string "EOF" end | None => of_string "EOF" end a))).
  unfold own_stream_prefix. rel.
Qed.
Lemma rel_sprog : forall p own, R (own_run_sprog U1 o1 p own) (own_run_sprog U2 o2 p own).
Proof.
  induction p; intros own; cbn [own_run_sprog]; try (rel; fail).
Qed.
Lemma rel_chars_loop : forall fuel pred max n, R (own_chars_loop U1 o1 fuel pred max n) (own_chars_loop U2 o2 fuel pred max n).
Proof. induction fuel as [|f IH]; intros pred max n; cbn [own_chars_loop]; rel. Qed.
Lemma rel_scan : forall fuel sc def, R (own_special_scan U1 o1 fuel sc def) (own_special_scan U2 o2 fuel sc def).
Proof.
  intros fuel sc def. destruct sc as [x|pred min max|x find|x prog]; cbn [own_special_scan].
  - rel.
  - unfold own_chars_scan. apply (kp_bind K); [rel|]. intros m. apply (kp_bind K); [rel|]. intros l. apply (kp_bind K); [apply rel_chars_loop|]. rel.
  - unfold own_regex_scan. rel.
  - apply rel_sprog.
Qed.
Definition rel_sub (s1 : own_subrun U1) (s2 : own_subrun U2) : Prop := forall a evs, R (s1 a evs) (s2 a evs).
Lemma rel_rep : forall s1 s2, (forall t, R (s1 t) (s2 t)) -> forall fuel min max i temp, R (own_rep_loop U1 o1 s1 fuel min max i temp) (own_rep_loop U2 o2 s2 fuel min max i temp).
Proof. intros s1 s2 H. induction fuel as [|f IH]; intros min max i temp; cbn [own_rep_loop]; rel. Qed.
Lemma rel_or : forall s1 s2, (forall t, R (s1 t) (s2 t)) -> forall subs, R (own_or_loop U1 o1 s1 subs) (own_or_loop U2 o2 s2 subs).
Proof. intros s1 s2 H. induction subs as [|s subs IH]; cbn [own_or_loop]; rel; try exact IH. Qed.
Lemma rel_capture : forall fuel e, R (own_capture_loop U1 o1 fuel e) (own_capture_loop U2 o2 fuel e).
Proof. induction fuel as [|f IH]; intros e; cbn [own_capture_loop]; rel. Qed.
Lemma rel_except : forall s1 s2, rel_sub s1 s2 -> forall lib fuel addr factor exc evs,
  R (own_except_scan U1 debug g o1 s1 lib fuel addr factor exc evs) (own_except_scan U2 debug g o2 s2 lib fuel addr factor exc evs).
Proof.
  intros s1 s2 H lib fuel addr factor exc evs. unfold own_except_scan.
  apply (kp_bind K); [rel|]. intros l. apply (kp_bind K); [rel|]. intros m. apply (kp_bind K); [apply H|]. intros (p & temp). destruct p as [|e]; [|rel].
  apply (kp_bind K); [rel|]. intros l'. apply (kp_bind K); [rel|]. intros _. apply (kp_bind K); [rel|]. intros m'. apply (kp_bind K); [apply rel_capture|]. intros b.
  apply (kp_bind K); [rel|]. intros l2. destruct (debug && negb (loc_eqb l' l2)); [rel|].
  destruct (fst _) as [[]|e|x|]; try (rel; fail). apply (kp_bind K); [rel|]. intros _. apply (kp_bind K); [apply rel_err|]. rel.
Qed.
Lemma rel_special : forall s1 s2, rel_sub s1 s2 -> forall fuel addr ins sc evs,
  R (own_special_step U1 g o1 s1 fuel addr ins sc evs) (own_special_step U2 g o2 s2 fuel addr ins sc evs).
Proof.
  intros s1 s2 H fuel addr ins sc evs. unfold own_special_step. apply (kp_bind K); [rel|]. intros m. apply (kp_bind K); [apply rel_scan|].
  intros [r| |id].
  - rel.
  - apply (kp_bind K); [rel|]. intros _. apply (kp_bind K); [apply rel_err|]. rel.
  - destruct (g_label g id); [|rel]. apply (kp_bind K); [rel|]. intros _. apply (kp_bind K); [apply H|]. intros (p & e). rel.
Qed.
Lemma rel_terminal : forall addr ins s evs, R (own_terminal_step U1 g o1 addr ins s evs) (own_terminal_step U2 g o2 addr ins s evs).
Proof.
  intros addr ins s evs. unfold own_terminal_step. apply (kp_bind K); [rel|]. intros [|]; [rel|]. apply (kp_bind K); [apply rel_err|]. rel.
Qed.
Lemma rel_run : forall fuel next evs, R (own_run U1 debug g o1 fuel next evs) (own_run U2 debug g o2 fuel next evs).
Proof.
  induction fuel as [|f IH]; intros next evs; cbn [own_run]; [rel|].
  destruct next as [addr|]; [|rel]. destruct (nth_error (g_instrs g) addr) as [ins|]; [|rel].
  assert (Hs : rel_sub (fun a evs => own_run U1 debug g o1 f (Some a) evs) (fun a evs => own_run U2 debug g o2 f (Some a) evs)) by (intros a e; apply IH).
  destruct (i_step ins) eqn:Ei.
  all: cbv zeta.
  all: try match goal with |- R (ubind _ (own_terminal_step _ _ _ _ _ _ _) _) _ => apply (kp_bind K); [apply rel_terminal|]; intros ([|?] & ?); cbv beta iota; [apply IH|rel]
           | |- R (ubind _ (own_special_step _ _ _ _ _ _ _ _ _) _) _ => apply (kp_bind K); [apply rel_special; exact Hs|]; intros ([|?] & ?); cbv beta iota; [apply IH|rel]
           | |- R (ubind _ (own_except_scan _ _ _ _ _ _ _ _ _ _ _) _) _ => apply (kp_bind K); [apply rel_except; exact Hs|]; intros ([|?] & ?); cbv beta iota; [apply IH|rel]
           | |- R (ubind _ (own_rep_loop _ _ _ _ _ _ _ _) _) _ => apply (kp_bind K); [apply rel_rep; intros t; apply IH|]; intros [e|temp]; [rel|apply IH]
           | |- R (ubind _ (own_or_loop _ _ _ _) _) _ => apply (kp_bind K); [apply rel_or; intros t; apply IH|]; intros [es|temp]; [|apply IH]
           | |- R (own_run _ _ _ _ _ _ _) _ => apply IH end.
  - destruct (pick_error (rev es)); [|rel]. apply (kp_bind K); [rel|]. intros l. destruct (loc_eqb _ l); [|rel].
    apply (kp_bind K); [apply rel_err|]. rel.
  - destruct (g_label g _); [|rel]. destruct (g_canonical g _); [|rel]. apply (kp_bind K); [rel|]. intros l0. apply (kp_bind K); [apply IH|]. intros ([|?] & temp); [|rel].
    apply (kp_bind K); [rel|]. intros l2. apply IH.
Qed.
Lemma rel_parse : forall fuel m, R (own_parse o1 debug g fuel m) (own_parse o2 debug g fuel m).
Proof.
  intros fuel m. unfold own_parse, own_machine_parse. apply (kp_bind K); [apply rel_run|]. intros (p & evs). destruct p; [|rel].
  apply (kp_bind K); [rel|]. intros [|]; [rel|]. apply (kp_bind K); [apply rel_err|]. rel.
Qed.
End Rel.
