(** Properties C47, C48, C51-C53: texts put one after the other, places of constructs,
    and when the lexer notices errors. *)
From Coq Require Import String List NArith Arith Bool.
From Verif Require Import Base Tokenizer Ast Lex SpecText SpecTok SpecLex SpecGram SpecSyntax
  SpecConcat SpecLoc SpecStick TokRun LexRun ConcatFacts LocFacts PlaceFacts StickFacts PropGram.
Import ListNotations.
Open Scope nat_scope.

(** C47: a text after an accepted text that ends with a terminator is read on its own:
    its rules follow those of the first text, moved to where the first text ends. *)
Theorem C47_rules_concatenate : forall name1 name2 s1 u tc s2 rs1 rs2 l1,
  s1 = u ++ [tc] -> tc = c_semi \/ tc = c_dot ->
  parse_str name1 s1 = Ok rs1 -> reaches (loc_new name1) s1 l1 ->
  parse_str name2 s2 = Ok rs2 ->
  exists rs2', parse_str name1 (s1 ++ s2) = Ok (rs1 ++ rs2') /\
    Forall2 eq_but_empty rs2' (map (reloc_rule (after l1) (after l1)) rs2).
Proof.
  exact (fun n1 n2 s1 u tc s2 rs1 rs2 l1 E => match eq_sym E in _ = x return
    tc = c_semi \/ tc = c_dot -> parse_str n1 x = Ok rs1 -> reaches (loc_new n1) x l1 ->
    parse_str n2 s2 = Ok rs2 -> exists rs2', parse_str n1 (x ++ s2) = Ok (rs1 ++ rs2') /\
    Forall2 eq_but_empty rs2' (map (reloc_rule (after l1) (after l1)) rs2)
    with eq_refl => concat_accept n1 n2 u tc s2 rs1 rs2 l1 end).
Qed.
Print Assumptions C47_rules_concatenate.
(** The other way round: the rest of an accepted text is accepted on its own. *)
Theorem C47_rest_accepted : forall name1 name2 u tc s2 rs1 rs,
  tc = c_semi \/ tc = c_dot -> parse_str name1 (u ++ [tc]) = Ok rs1 ->
  parse_str name1 ((u ++ [tc]) ++ s2) = Ok rs ->
  exists rs2, parse_str name2 s2 = Ok rs2.
Proof. exact concat_reject. Qed.
Print Assumptions C47_rest_accepted.
(** [after] is the place reached by the same text from the other start. *)
Theorem C47_after : forall o name v l, reaches (loc_new name) v l -> reaches o v (after o l).
Proof. exact after_reaches. Qed.
Print Assumptions C47_after.
Example C47_case : exists r1 r2 r3 r2' r3',
  parse_str [] ([97; 61; 39; 120; 39; 59]%N) = Ok [r1] /\
  parse_str [] (txt " b = [c]; d = ?e?") = Ok [r2; r3] /\
  parse_str [] (txt "a='x'; b = [c]; d = ?e?") = Ok [r1; r2'; r3'] /\
  map (reloc_rule (after (Loc [] 1 7)) (after (Loc [] 1 7))) [r2; r3] = [r2'; r3'] /\
  l_columns (r_loc r3') = 17%N.
Proof. vm_compute. do 5 eexists. repeat split. Qed.

(** C48: rules and primaries carry the place where their text starts. *)
Theorem C48_locations : forall name s rs r, parse_str name s = Ok rs -> In r rs ->
  (exists u v, s = u ++ v /\ reaches (loc_new name) u (r_loc r) /\ begins_ident (r_id r) v) /\
  (forall p, part_of p r -> ~ is_empty p ->
   exists u v, s = u ++ v /\ reaches (loc_new name) u (p_loc p) /\ begins p v).
Proof. exact parse_located. Qed.
Print Assumptions C48_locations.
(** The whole construct stands there, not only its first symbol. *)
Theorem C48_whole_construct : forall name s rs r p,
  parse_str name s = Ok rs -> In r rs -> part_of p r ->
  exists a w b, lexes (loc_new name) s (a ++ w ++ b) /\ g_primary w p /\
    (~ is_empty p -> reaches (loc_new name) (flat_map tok_text a) (p_loc p)).
Proof. exact parse_placed. Qed.
Print Assumptions C48_whole_construct.
Example C48_case : exists r d,
  parse_str [] (txt "a = 'x', {2 * long  name - ?q?};") = Ok [r] /\ r_loc r = Loc [] 1 1 /\
  part_of (PRepeated (Loc [] 1 10) d) r /\ part_of (PMeta (Loc [] 1 15) (txt "long name")) r /\
  part_of (PSpecial (Loc [] 1 28) (txt "q")) r.
Proof.
  vm_compute. do 2 eexists. split; [reflexivity|]. split; [reflexivity|]. split; [|split].
  - eexists. eexists. split; [left; reflexivity|]. split; [right; left; reflexivity|]. left. apply inside_here.
  - eexists. eexists. split; [left; reflexivity|]. split; [right; left; reflexivity|]. left.
    eapply inside_deeper; [right; left; reflexivity|left; reflexivity|left; reflexivity|]. left. apply inside_here.
  - eexists. eexists. split; [left; reflexivity|]. split; [right; left; reflexivity|]. left.
    eapply inside_deeper; [right; left; reflexivity|left; reflexivity|left; reflexivity|].
    right. eexists. split; [reflexivity|]. apply inside_here.
Qed.

(** C51: a failure is never premature: once a call has failed, no continuation of the
    text is accepted. *)
Theorem C51_failures_not_premature : forall name fs lx e,
  feed (lx_new name 0) fs = (lx, Err e) ->
  forall v rs, parse_str name (frags_text fs ++ v) <> Ok rs.
Proof. exact not_premature. Qed.
Print Assumptions C51_failures_not_premature.
(** A character that cannot start a token is not noticed at once. *)
Theorem C51_noticed_at_once_refuted : exists fs lx rs,
  feed (lx_new [] 0) fs = (lx, Ok rs) /\ hopeless [] (frags_text fs).
Proof.
  exists [FChar 36], (Lx (Tk 0 [36%N] (loc_new [])) []), []. split; [reflexivity|]. intros v ts H.
  apply lexes_steps in H as (ts1 & l' & b' & ts2 & Hs & Hst & Hf & _).
  destruct v as [|c v]; inversion Hs; subst; try discriminate.
Qed.
Print Assumptions C51_noticed_at_once_refuted.
(** But it is noticed with the next character. *)
Theorem C51_at_most_one_character_late : forall name fs lx rs s c,
  feed (lx_new name 0) fs = (lx, Ok rs) -> frags_text fs = s ++ [c] -> ~ hopeless name s.
Proof. exact viable. Qed.
Print Assumptions C51_at_most_one_character_late.
Example C51_case : (exists lx e, feed (lx_new [] 0) [FStr (txt "a='x"); FChar 10%N] = (lx, Err e)) /\
  (exists lx rs, feed (lx_new [] 0) [FStr (txt "a='x';b=(*((*)"); FChar 40%N] = (lx, Ok rs) /\ length rs = 1).
Proof. vm_compute. split; do 2 eexists; [reflexivity|]. split; reflexivity. Qed.

(** C52: when the text given so far cannot be saved, every later call that adds text
    fails and [flush] does not succeed, whatever failed before. *)
Theorem C52_lexical_errors_stick : forall name fs f,
  hopeless name (frags_text fs) -> frag_text f <> [] ->
  exists e, snd (call (calls (lx_new name 0) fs) f) = Err e.
Proof. exact stick_calls. Qed.
Print Assumptions C52_lexical_errors_stick.
Theorem C52_flush_fails : forall name fs o,
  hopeless name (frags_text fs) -> snd (lx_flush (calls (lx_new name 0) fs)) <> Ok o.
Proof. exact stick_flush. Qed.
Print Assumptions C52_flush_fails.
Theorem C52_stays_hopeless : forall name u x, hopeless name u -> hopeless name (u ++ x).
Proof. exact hopeless_more. Qed.
Print Assumptions C52_stays_hopeless.
Example C52_case : hopeless [] (frags_text [FStr (txt "a=]"); FStr (txt "x;*)"); FStr (txt "b=c;")]) /\
  exists e, snd (call (calls (lx_new [] 0) [FStr (txt "a=]"); FStr (txt "x;*)"); FStr (txt "b=c;")]) (FChar 59%N)) = Err e.
Proof.
  split; [|vm_compute; eauto]. eapply failed_hopeless. vm_compute. reflexivity.
Qed.
(** [flush] after such a failure can also panic (an assertion kept in release builds). *)
Theorem C09_flush_after_lexical_error_panics_refuted : exists fs e p,
  snd (feed (lx_new [] 0) fs) = Err e /\ snd (lx_flush (calls (lx_new [] 0) fs)) = Panic p.
Proof. exists [FStr (txt "a='x' $ ")]. vm_compute. do 2 eexists. split; reflexivity. Qed.
Print Assumptions C09_flush_after_lexical_error_panics_refuted.

(** C53 fails: an empty sequence between brackets with nothing in them carries a place
    in a text that does not exist. *)
Theorem C53_every_location_in_text_refuted : exists s rs r p,
  parse_str (txt "f") s = Ok rs /\ In r rs /\ part_of p r /\
  ~ exists u v, s = u ++ v /\ reaches (loc_new (txt "f")) u (p_loc p).
Proof.
  exists (txt "a=[];"). eexists. eexists. exists (PEmpty (loc_new (txt "<unknown>"))).
  split; [vm_compute; reflexivity|]. split; [left; reflexivity|]. split.
  - eexists. eexists. split; [left; reflexivity|]. split; [left; reflexivity|]. left.
    eapply inside_deeper; [left; reflexivity|left; reflexivity|left; reflexivity|]. left. apply inside_here.
  - intros (u & v & _ & H & _). vm_compute in H. discriminate.
Qed.
Print Assumptions C53_every_location_in_text_refuted.
(** All other locations are places in the text. *)
Theorem C53_locations_in_text : forall name s rs r p,
  parse_str name s = Ok rs -> In r rs -> part_of p r ->
  (exists u v, s = u ++ v /\ reaches (loc_new name) u (p_loc p)) \/
  (is_empty p /\ p_loc p = loc_new (txt "<unknown>")).
Proof. exact parse_places. Qed.
Print Assumptions C53_locations_in_text.
Example C53_case : exists r l, parse_str [] (txt "a = 'x' | ;") = Ok [r] /\ part_of (PEmpty l) r /\
  l = Loc [] 1 11.
Proof.
  vm_compute. do 2 eexists. split; [reflexivity|]. split; [|reflexivity].
  eexists. eexists. split; [right; left; reflexivity|]. split; [left; reflexivity|]. left. apply inside_here.
Qed.
