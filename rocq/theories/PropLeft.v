(** C93: where a parse leaves the reader.

    [gives_up rs cfg n s s'] (SpecLeft.v): [n] fails at [s] and leaves the reader at [s'];
    [place s l] (SpecError.v): [l] is the location of a place of the text at [s]. *)
From Coq Require Import String List NArith Arith Bool Lia.
From Verif Require Import Base Ident Tokenizer Ast Lex Syntax Io Graph Machine SpecText SpecSyntax SpecIo TextFacts SyntaxFacts IoFacts SpecParse SpecMachine SpecError SpecLeft Pure ParseFacts CodeFacts EvFacts MachineFacts FuelFacts LeftFacts PropSyntax PropParse PropEvents PropDeriv.
Import ListNotations.
Open Scope nat_scope.

(** "A parse that fails leaves the reader where it was" is false: here the 'a' is gone. *)
Definition after_parse (t id s : str) : option (res (list event) * pst) :=
  match prepare default_config t id with
  | Some (g, m) => Some (fst (parser_parse true g 20 m (text_reader s)), stand (snd (parser_parse true g 20 m (text_reader s))))
  | None => None
  end.
Definition b_wanted : error := Error_ (Loc [] 1 2) (MExpected (debug_str (txt "b")) (Base.AText (txt "c") false)).
Lemma after_case : after_parse (txt "S='a','b';") (txt "S") (txt "ac") = Some (Err b_wanted, Pst (txt "c") (Loc [] 1 2)).
Proof. vm_compute. reflexivity. Qed.
Lemma some_pair : forall A B (a a' : A) (b b' : B), Some (a, b) = Some (a', b') -> a = a' /\ b = b'.
Proof. intros A B a a' b b' [= -> ->]. auto. Qed.
Lemma unmoved_witness : exists g m, prepare default_config (txt "S='a','b';") (txt "S") = Some (g, m) /\
  fst (parser_parse true g 20 m (text_reader (txt "ac"))) = Err b_wanted /\
  stand (snd (parser_parse true g 20 m (text_reader (txt "ac")))) = Pst (txt "c") (Loc [] 1 2).
Proof.
  pose proof after_case as H. unfold after_parse in H.
  destruct (prepare default_config (txt "S='a','b';") (txt "S")) as [(g & m)|] eqn:E; [|discriminate H].
  exists g, m. split; [reflexivity|]. exact (some_pair _ _ _ _ _ _ H).
Qed.
Theorem C93_unmoved_refuted : exists rs cfg g id m rd e, parser_for rs cfg g id m /\ reader rd /\ ending_of rd = None /\
  fst (parser_parse true g 20 m rd) = Err e /\ stand (snd (parser_parse true g 20 m rd)) <> stand rd.
Proof.
  destruct unmoved_witness as (g & m & E & H & K). destruct (text_reader_ok (txt "ac")) as (A & B & C).
  exists (rules_of (txt "S='a','b';")), default_config, g, (txt "S"), m, (text_reader (txt "ac")), b_wanted.
  split; [apply prepare_ok; exact E|]. split; [exact A|]. split; [exact B|]. split; [exact H|]. rewrite K, C. discriminate.
Qed.
Print Assumptions C93_unmoved_refuted.

(** Whatever happens, the reader does not go back behind where the parse started. *)
Lemma forward_pf : forall debug g fuel m rd, reader rd -> exists w, goes (stand rd) w (stand (snd (parser_parse debug g fuel m rd))).
Proof.
  intros debug g fuel m rd Hr. destruct (parse_reader debug g fuel m rd Hr) as (_ & B & _). rewrite B. unfold pmachine_parse.
  match goal with |- exists w, goes _ w (snd (?p _)) => assert (K : fwd (stand rd) p) end.
  { apply fwd_bind; [apply fwd_run|]. intros ([|e] & evs).
    - apply fwd_bind; [apply fwd_eof|]. intros []; [destruct (debug && negb (removed_labels_agree (List.tl evs)))%bool; intros s H; exact H|].
      apply fwd_bind; [apply fwd_expected|]. intros x s H. exact H.
    - intros s H. exact H. }
  apply K. apply moved_refl.
Qed.
Theorem C93_forward : forall debug g fuel m rd, reader rd -> exists w, goes (stand rd) w (stand (snd (parser_parse debug g fuel m rd))).
Proof. exact forward_pf. Qed.
Print Assumptions C93_forward.

(** After an error, except one that stopped the parse in the middle (C86), the reader stands
    either behind what the rule has matched, with text left, or where the rule gave up; the
    place of the error is still ahead. *)
Lemma left_pf : forall rs cfg g id m debug fuel rd e, parser_for rs cfg g id m -> reader rd -> ending_of rd = None ->
  fst (parser_parse debug g fuel m rd) = Err e -> ~ means rs cfg id (stand rd) (Halt (Failed e)) ->
  place (stand (snd (parser_parse debug g fuel m rd))) (e_loc e) /\
  ((exists evs, means rs cfg id (stand rd) (Match (stand (snd (parser_parse debug g fuel m rd))) evs) /\
      unread (snd (parser_parse debug g fuel m rd)) <> [] /\
      e = wanted (stand (snd (parser_parse debug g fuel m rd))) (of_string "EOF")) \/
   (exists r, names rs id r /\ gives_up rs cfg (NRef (r_loc r) (r_id r)) (stand rd) (stand (snd (parser_parse debug g fuel m rd))))).
Proof.
  intros rs cfg g id m debug fuel rd e Hp Hr He H Hh.
  destruct (parse_leaves rs cfg g id m debug fuel rd e Hp Hr He H) as [(raw & r & Hn & K)|[(raw & K & K2 & K3)|K]]; [| |contradiction].
  - split; [destruct (ev_ahead _ _ _ _ _ K) as (s2 & (w & A) & B); exists w, s2; auto|]. right. exists r. split; [exact Hn|]. exact (ev_stays _ _ _ _ _ K).
  - split; [rewrite K3; exists [], (stand (snd (parser_parse debug g fuel m rd))); split; [apply goes_nil|reflexivity]|]. left. exists raw. auto.
Qed.
Theorem C93_left : forall rs cfg g id m debug fuel rd e, parser_for rs cfg g id m -> reader rd -> ending_of rd = None ->
  fst (parser_parse debug g fuel m rd) = Err e -> ~ means rs cfg id (stand rd) (Halt (Failed e)) ->
  place (stand (snd (parser_parse debug g fuel m rd))) (e_loc e) /\
  ((exists evs, means rs cfg id (stand rd) (Match (stand (snd (parser_parse debug g fuel m rd))) evs) /\
      unread (snd (parser_parse debug g fuel m rd)) <> [] /\
      e = wanted (stand (snd (parser_parse debug g fuel m rd))) (of_string "EOF")) \/
   (exists r, names rs id r /\ gives_up rs cfg (NRef (r_loc r) (r_id r)) (stand rd) (stand (snd (parser_parse debug g fuel m rd))))).
Proof. exact left_pf. Qed.
Print Assumptions C93_left.

(** Conversely: where the rule gives up, the parse fails and leaves the reader exactly there. *)
Lemma gives_up_pf : forall rs cfg g id m debug rd r s', parser_for rs cfg g id m -> reader rd -> ending_of rd = None ->
  names rs id r -> gives_up rs cfg (NRef (r_loc r) (r_id r)) (stand rd) s' ->
  exists f0, forall fuel, f0 <= fuel ->
    exists e, fst (parser_parse debug g fuel m rd) = Err e /\ stand (snd (parser_parse debug g fuel m rd)) = s'.
Proof.
  intros rs cfg g id m debug rd r s' Hp Hr He Hn H.
  destruct (gives_up_ev rs cfg (parser_unique _ _ _ _ _ Hp) (proj1 (proj2 Hp)) _ _ _ H) as (e & evs & K).
  assert (Hm : means rs cfg id (stand rd) (No e s' evs)) by (exists r; auto).
  destruct (parse_complete_api rs cfg g id m debug rd _ Hp Hr He Hm) as (f0 & Hf). exists f0. intros fuel Hle. specialize (Hf fuel Hle). cbv iota in Hf.
  exists e. split; [exact Hf|]. assert (Hx : fst (parser_parse debug g fuel m rd) <> OutOfFuel) by congruence.
  exact (parse_settled rs cfg g id m debug fuel rd _ Hp Hr He Hx Hm).
Qed.
Theorem C93_gives_up : forall rs cfg g id m debug rd r s', parser_for rs cfg g id m -> reader rd -> ending_of rd = None ->
  names rs id r -> gives_up rs cfg (NRef (r_loc r) (r_id r)) (stand rd) s' ->
  exists f0, forall fuel, f0 <= fuel ->
    exists e, fst (parser_parse debug g fuel m rd) = Err e /\ stand (snd (parser_parse debug g fuel m rd)) = s'.
Proof. exact gives_up_pf. Qed.
Print Assumptions C93_gives_up.

(** A rule of several definitions that fails leaves the reader where it was. *)
Lemma choice_pf : forall rs cfg g id m debug fuel rd e r d1 d2 ds, parser_for rs cfg g id m -> reader rd -> ending_of rd = None ->
  names rs id r -> r_defs r = d1 :: d2 :: ds -> fails rs cfg (NDefs (r_defs r)) (stand rd) ->
  fst (parser_parse debug g fuel m rd) = Err e -> stand (snd (parser_parse debug g fuel m rd)) = stand rd.
Proof.
  intros rs cfg g id m debug fuel rd e r d1 d2 ds Hp Hr He Hn Hd (x & s' & evs & Hf) H.
  assert (Hm : means rs cfg id (stand rd) (No x s' [])) by (exists r; split; [exact Hn|]; eapply ev_ref_no; [exact (self_name _ _ _ Hn)|exact Hf]).
  assert (Hx : fst (parser_parse debug g fuel m rd) <> OutOfFuel) by congruence.
  pose proof (parse_settled rs cfg g id m debug fuel rd _ Hp Hr He Hx Hm) as K. cbv iota in K. rewrite K.
  pose proof (ev_stays _ _ _ _ _ Hf) as G. cbn [stays] in G. rewrite Hd in G. inversion G; subst. reflexivity.
Qed.
Theorem C93_choice : forall rs cfg g id m debug fuel rd e r d1 d2 ds, parser_for rs cfg g id m -> reader rd -> ending_of rd = None ->
  names rs id r -> r_defs r = d1 :: d2 :: ds -> fails rs cfg (NDefs (r_defs r)) (stand rd) ->
  fst (parser_parse debug g fuel m rd) = Err e -> stand (snd (parser_parse debug g fuel m rd)) = stand rd.
Proof. exact choice_pf. Qed.
Print Assumptions C93_choice.

(** A further parse with the same reader treats what is left as if it were a text by itself. *)
Theorem C93_again : forall debug g1 fuel1 m1 g2 fuel2 m2 rd rd2, reader rd -> reader rd2 ->
  stand rd2 = stand (snd (parser_parse debug g1 fuel1 m1 rd)) -> ending_of rd2 = ending_of rd ->
  fst (parser_parse debug g2 fuel2 m2 (snd (parser_parse debug g1 fuel1 m1 rd))) = fst (parser_parse debug g2 fuel2 m2 rd2).
Proof.
  intros debug g1 fuel1 m1 g2 fuel2 m2 rd rd2 Hr Hr2 Hs He. destruct (parse_reader debug g1 fuel1 m1 rd Hr) as (_ & _ & E).
  apply parse_same; [apply rd_parse; exact Hr|exact Hr2|symmetry; exact Hs|congruence].
Qed.
Print Assumptions C93_again.

(** Three rounds of 'ab' are wanted, and the second fails: the reader is left behind the
    first; for the choice it is where it was; a rule that matches a beginning leaves it
    behind that, and a second parse reads the rest. *)
Definition left_after (t id s : str) : option pst :=
  match prepare default_config t id with Some (g, m) => Some (stand (snd (parser_parse true g 100 m (text_reader s)))) | None => None end.
Definition twice (t id1 id2 s : str) : option (res (list event) * res (list event)) :=
  match prepare default_config t id1, prepare default_config t id2 with
  | Some (g1, m1), Some (g2, m2) =>
      let (x, rd) := parser_parse true g1 100 m1 (text_reader s) in Some (x, fst (parser_parse true g2 100 m2 rd))
  | _, _ => None
  end.
Example C93_case :
  left_after (txt "S=3*A; A='a','b';") (txt "S") (txt "abac") = Some (Pst (txt "c") (Loc [] 1 4)) /\
  left_after (txt "S=3*'ab';") (txt "S") (txt "abac") = Some (Pst (txt "ac") (Loc [] 1 3)) /\
  left_after (txt "S='a','b'|'c';") (txt "S") (txt "ac") = Some (Pst (txt "ac") (Loc [] 1 1)) /\
  twice (txt "A='a',{'a'}; B='b';") (txt "A") (txt "B") (txt "aab") =
    Some (Err (Error_ (Loc [] 1 3) (MExpected (txt "EOF") (Base.AText (txt "b") false))), Ok [bg 14 3 "B"; tk 16 3 "b"; en 14 4 "B"]).
Proof. split; [vm_compute; reflexivity|]. split; [vm_compute; reflexivity|]. split; vm_compute; reflexivity. Qed.
