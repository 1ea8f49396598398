(** Property C75: the place of a text in its source. *)
From Coq Require Import String List NArith Arith Bool Lia.
From Verif Require Import Base Ident Tokenizer Ast Lex Syntax Io Graph Machine SpecText SpecSyntax SpecIo TextFacts SyntaxFacts IoFacts SpecParse SpecMachine SpecEvents SpecLike SpecMove SpecName Pure ParseFacts CodeFacts EvFacts EventFacts MachineFacts LikeFacts MoveFacts PropSyntax PropParse PropEvents.
Import ListNotations.
Open Scope nat_scope.

(** ** C75.  Where a text stands moves places, and nothing else *)
(** Two readers, whatever was read from them before, with the same text before them. *)
Theorem C75_elsewhere : forall rs cfg g id m debug fuel rd rd', parser_for rs cfg g id m -> hands_on cfg ->
  reader rd -> ending_of rd = None -> reader rd' -> ending_of rd' = None -> unread rd = unread rd' ->
  fst (parser_parse debug g fuel m rd) <> OutOfFuel ->
  exists f0, forall fuel', f0 <= fuel' ->
    shifted_answer (p_at (stand rd)) (p_at (stand rd')) (fst (parser_parse debug g fuel m rd)) (fst (parser_parse debug g fuel' m rd')).
Proof.
  intros rs cfg g id m debug fuel rd rd' Hp Hc Hr He Hr' He' E Hf.
  refine (parse_shifted _ _ rs cfg _ g id m debug fuel rd rd' Hp Hr He Hr' He' _ Hf).
  - intros l c. specialize (Hc l c). destruct (cfg l c); try exact I. apply Hc.
  - split; [exact E|apply shifted_refl].
Qed.
Print Assumptions C75_elsewhere.
(** [shifted] says where the same piece of text leads from both starts. *)
Theorem C75_shifted_places : forall a b w l l', reaches a w l -> reaches b w l' -> shifted a b l l'.
Proof.
  intros a b w l l' H H'. destruct (shifted_go a b a b w l (shifted_refl a b) H) as (m & R & M). rewrite (reaches_unique _ _ _ _ H' R). exact M.
Qed.
Print Assumptions C75_shifted_places.
Theorem C75_one_place : forall a b l l1 l2, shifted a b l l1 -> shifted a b l l2 -> l1 = l2.
Proof. intros a b l l1 l2 H1 H2. apply (shifted_one a b l l1 l l2 H1 H2). reflexivity. Qed.
Print Assumptions C75_one_place.
(** The scanners of the library hand locations on. *)
Theorem C75_library : forall cfg, (forall l c, library_scanner (cfg l c)) -> hands_on cfg.
Proof. intros cfg H l c. specialize (H l c). destruct (cfg l c); try exact I. destruct H. Qed.
Print Assumptions C75_library.

(** The name of a source. *)
Definition event_in (n : str) (e : event) : event :=
  match e with
  | EvToken d l w => EvToken d (in_source n l) w
  | EvBegin d l w => EvBegin d (in_source n l) w
  | EvEnd d l w => EvEnd d (in_source n l) w
  end.
Lemma named_shift : forall n1 n2 l l', shifted (loc_new n1) (loc_new n2) l l' -> l' = in_source n2 l.
Proof.
  intros n1 n2 [n i c] [n' i' c'] (A & B & C). cbn in *. subst. unfold in_source. cbn. destruct C as [(k & ? & ? & ? & ?)|(k & ? & ? & ? & ?)]; f_equal; lia.
Qed.
Theorem C75_source_name : forall rs cfg g id m debug fuel name1 name2 chunks1 chunks2, parser_for rs cfg g id m -> hands_on cfg ->
  concat chunks1 = concat chunks2 ->
  fst (parser_parse debug g fuel m (mr_new (loc_new name1) (Src chunks1 None))) <> OutOfFuel ->
  exists f0, forall fuel', f0 <= fuel' ->
    match fst (parser_parse debug g fuel m (mr_new (loc_new name1) (Src chunks1 None))) with
    | Ok evs => fst (parser_parse debug g fuel' m (mr_new (loc_new name2) (Src chunks2 None))) = Ok (map (event_in name2) evs)
    | Err e => fst (parser_parse debug g fuel' m (mr_new (loc_new name2) (Src chunks2 None))) = Err (Error_ (in_source name2 (e_loc e)) (e_msg e))
    | Panic _ => exists p, fst (parser_parse debug g fuel' m (mr_new (loc_new name2) (Src chunks2 None))) = Panic p
    | OutOfFuel => False
    end.
Proof.
  intros rs cfg g id m debug fuel name1 name2 chunks1 chunks2 Hp Hc E Hf.
  destruct (C75_elsewhere rs cfg g id m debug fuel _ (mr_new (loc_new name2) (Src chunks2 None)) Hp Hc (rd_new _ _ _) eq_refl (rd_new _ _ _) eq_refl E Hf) as (f0 & H).
  exists f0. intros fuel' Hle. specialize (H fuel' Hle).
  assert (M : forall x y, shifted_events (loc_new name1) (loc_new name2) x y -> y = map (event_in name2) x).
  { intros x y K. induction K as [|e f x y Hef K IH]; [reflexivity|]. cbn [map]. rewrite IH. f_equal. destruct Hef as [d l l' w Hl|d l l' w Hl|d l l' w Hl]; cbn [event_in]; rewrite (named_shift _ _ _ _ Hl); reflexivity. }
  change (p_at (stand (mr_new (loc_new name1) (Src chunks1 None)))) with (loc_new name1) in H.
  change (p_at (stand (mr_new (loc_new name2) (Src chunks2 None)))) with (loc_new name2) in H.
  destruct (fst (parser_parse debug g fuel m (mr_new (loc_new name1) (Src chunks1 None)))) as [x|e|q|];
    destruct (fst (parser_parse debug g fuel' m (mr_new (loc_new name2) (Src chunks2 None)))) as [y|e'|q'|]; cbn in H; try contradiction.
  - rewrite (M _ _ H). reflexivity.
  - destruct e as [l k], e' as [l' k']. destruct H as (Ek & H). cbn in *. subst k'. rewrite (named_shift _ _ _ _ H). reflexivity.
  - eauto.
Qed.
Print Assumptions C75_source_name.

(** A line end in the text, and a scanner that asks where it is. *)
Definition asking : config := fun _ c =>
  if str_eqb c (txt "nl") then ScChars (fun x => N.eqb x 10) None (Some 1%N)
  else ScUser c (fun def => SpLoc (fun l => SpRead (fun x => match x with Some y => SpRet (RMatch [EvToken def l [y]]) | None => SpRet RUnmatch end))).
Example asking_hands_on : hands_on asking.
Proof.
  intros l c. unfold asking. destruct (str_eqb c (txt "nl")); [exact I|]. intros a b. apply sp_move_loc. intros l1 l2 H. apply sp_move_read. intros [y|]; apply sp_move_ret; [|exact I].
  constructor; [apply sv_token; exact H|constructor].
Qed.
Example C75_case :
  exists evs, parse_case asking (txt "S=?x?,?nl?,'b',?x?;") (txt "S") true 300 (text_reader ([97; 10]%N ++ txt "bc")) = Some (Ok evs) /\
    evs = [bg 1 1 "S"; tk 3 1 "a"; EvToken (Loc [] 1 7) (Loc [] 1 2) [10%N]; EvToken (Loc [] 1 12) (Loc [] 2 1) (txt "b"); EvToken (Loc [] 1 16) (Loc [] 2 2) (txt "c"); EvEnd (Loc [] 1 1) (Loc [] 2 3) (txt "S")] /\
  parse_case asking (txt "S=?x?,?nl?,'b',?x?;") (txt "S") true 300 (mr_of_text (Loc (txt "f") 4 7) ([97; 10]%N ++ txt "bc")) =
    Some (Ok (let at_ i c := Loc (txt "f") i c in [EvBegin (Loc [] 1 1) (at_ 4 7)%N (txt "S"); EvToken (Loc [] 1 3) (at_ 4 7)%N (txt "a");
      EvToken (Loc [] 1 7) (at_ 4 8)%N [10%N]; EvToken (Loc [] 1 12) (at_ 5 1)%N (txt "b"); EvToken (Loc [] 1 16) (at_ 5 2)%N (txt "c"); EvEnd (Loc [] 1 1) (at_ 5 3)%N (txt "S")])).
Proof. eexists. split; [vm_compute; reflexivity|]. split; vm_compute; reflexivity. Qed.
(** A scanner may look at the location it is told; then places do matter. *)
Definition margin : config := fun _ c => ScUser c (fun def => SpLoc (fun l => if N.eqb (l_columns l) 1 then SpRet (RMatch []) else SpRet RUnmatch)).
Theorem C75_any_scanner_refuted : exists rd rd', reader rd /\ reader rd' /\ unread rd = unread rd' /\
  (exists evs, parse_case margin (txt "S=?m?,'a';") (txt "S") true 300 rd = Some (Ok evs)) /\
  (exists e, parse_case margin (txt "S=?m?,'a';") (txt "S") true 300 rd' = Some (Err e)).
Proof.
  exists (mr_of_text (Loc [] 1 1) (txt "a")), (mr_of_text (Loc [] 1 2) (txt "a")). split; [apply rd_new|]. split; [apply rd_new|]. split; [reflexivity|].
  split; eexists; vm_compute; reflexivity.
Qed.
Print Assumptions C75_any_scanner_refuted.
