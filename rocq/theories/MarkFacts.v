(** The marks of a caller outlive parses and scanners. *)
From Coq Require Import String List NArith Arith Bool Lia.
From Verif Require Import Base Ident Tokenizer Ast Lex Syntax Io Graph Machine SpecText SpecIo TextFacts IoFacts SpecParse SpecMachine SpecMark Pure PureFacts ParseFacts MachineFacts.
Import ListNotations.
Open Scope nat_scope.

Lemma among_one : forall {A} (x : A) l, In x l -> among [x] l.
Proof. intros A x l. induction l as [|y l IH]; [contradiction|]. intros [->|H]; [apply am_keep; apply am_nil|apply am_skip; auto]. Qed.
Lemma reset_place : forall T E l0 k n r c r1, rep T E l0 r c -> m_reset k r = (Ok n, r1) ->
  exists q, In (k, q) (c_marks c) /\ stand r1 = st T l0 q /\ q <= length T.
Proof.
  intros T E l0 k n r c r1 R H. destruct (rep_reset T E l0 k r c R) as (a & r' & c' & K1 & K2 & K3 & _).
  rewrite H in K1. cbn in K1. injection K1 as <- <-.
  inversion K2; subst.
  - exists p. split; [|destruct (stand_rep _ _ _ _ _ K3) as (-> & _); split; [reflexivity|exact (rep_bound _ _ _ _ _ K3)]].
    match goal with H : c_marks c = _ |- _ => rewrite H end. apply in_elt.
Qed.
Lemma kept : forall T E l0 r c r' c', rep T E l0 r c -> rep T E l0 r' c' -> among (c_marks c) (c_marks c') -> keeps_marks r r'.
Proof.
  intros T E l0 r c r' c' R R' A k n r1 H. destruct (reset_place _ _ _ _ _ _ _ _ R H) as (q & Hq & Hs & Hb).
  pose proof (among_one _ _ (among_in _ _ A _ Hq)) as O. destruct (stand_rep _ _ _ _ _ R') as (Hs' & _). split.
  - destruct (reset_known T E l0 [] k q r' c' R' O) as (n' & r2 & c2 & K1 & K2 & K3 & _ & K5).
    exists n', r2. destruct (stand_rep _ _ _ _ _ K2) as (Hs2 & _). split; [exact K1|]. split; [rewrite Hs2, Hs, K3; reflexivity|].
    pose proof (f_equal p_rest Hs') as L1. pose proof (f_equal p_rest Hs) as L2. unfold stand, st in L1, L2. cbn in L1, L2. rewrite L1, L2, !skipn_length.
    pose proof (rep_bound _ _ _ _ _ R'). lia.
  - destruct (unmark_known T E l0 [] k q r' c' R' O) as (r2 & c2 & K1 & K2 & K3 & _). exists r2. split; [exact K1|].
    destruct (stand_rep _ _ _ _ _ K2) as (-> & _). rewrite Hs', K3. reflexivity.
Qed.
Lemma parse_keeps_marks : forall debug g fuel m rd, reader rd -> keeps_marks rd (snd (parser_parse debug g fuel m rd)).
Proof.
  intros debug g fuel m rd Hr. destruct (reader_rep rd Hr) as (T & l0 & c & R).
  destruct (simc_parse debug g fuel T (ending_of rd) l0 (c_marks c) (mc_entry m) rd c R (among_refl _)) as (r' & c' & K1 & K2 & _ & K4).
  unfold parser_parse. rewrite K1. cbn [snd]. eapply kept; eauto.
Qed.
Lemma scan_keeps_marks : forall debug fuel sc def rd, reader rd -> ub_stack (mr_ub rd) <> [] -> keeps_marks rd (snd (special_scan debug fuel sc def rd)).
Proof.
  intros debug fuel sc def rd Hr Hm. destruct (reader_rep rd Hr) as (T & l0 & c & R).
  destruct (simc_special_scan debug T (ending_of rd) l0 fuel sc def (c_marks c)) with (r := rd) (c := c) as (r' & c' & K1 & K2 & _ & K4); auto using among_refl.
  { intros E. apply Hm. destruct R as (b & R). rewrite (rp_stack _ _ _ _ _ _ R), E. reflexivity. }
  rewrite K1. cbn [snd]. eapply kept; eauto.
Qed.
Lemma program_answers : forall debug fuel sym prog def rd, reader rd -> ending_of rd = None -> ub_stack (mr_ub rd) <> [] ->
  exists r, programmed [] (prog def) (stand rd) r /\ (forall r', programmed [] (prog def) (stand rd) r' -> r' = r) /\
    answers (special_scan debug fuel (ScUser sym prog) def rd) r.
Proof.
  intros debug fuel sym prog def rd Hr He Hm. destruct (scan_reader debug fuel (ScUser sym prog) def rd Hr He (or_intror Hm)) as (rd' & K1 & K2).
  cbn [pspecial_scan] in K1, K2. destruct (sprog_none (prog def) (stand rd)) as (r & A & B). exists r. split; [exact A|].
  split; [intros r' H; eapply programmed_fun; eauto|]. rewrite K1.
  destruct (prun_sprog None (prog def) [] (stand rd)) as ([re|e|p|] & s1); cbn [scan_is fst snd] in *; try contradiction; subst r; [|reflexivity].
  destruct re; cbn; auto.
Qed.
