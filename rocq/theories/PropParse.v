(** Properties C30, C31, C33, C38-C42, C44-C46: parsing with a compiled syntax.

    [parser_for rs cfg g id m] (SpecMachine.v): the rules [rs] made a [Syntax] that was
    compiled to [g], and [m] is [Parser::new] for [id].  [reader rd]: any reader a caller
    can have.  [stand rd]: the text not read yet and the location.  [means rs cfg id s o]
    (SpecParse.v): by the semantics of the rules, the rule [id] has the outcome [o] at [s]. *)
From Coq Require Import String List NArith Arith Bool Lia.
From Verif Require Import Base Ident Tokenizer Ast Lex Syntax Io Graph Machine SpecText SpecSyntax SpecIo TextFacts SyntaxFacts IoFacts SpecParse SpecMachine Pure ParseFacts CodeFacts EvFacts MachineFacts FuelFacts PropSyntax.
Import ListNotations.
Open Scope nat_scope.

(** For concrete cases. *)
Definition prepare (cfg : config) (t id : str) : option (graph * machine) :=
  match parse_str [] t with
  | Ok rs => match new_syntax rs with
    | Ok sy => match compile cfg sy with
      | Ok g => match machine_new g id with Ok (Some m) => Some (g, m) | _ => None end
      | _ => None end
    | _ => None end
  | _ => None end.
Lemma prepare_ok : forall cfg t id g m, prepare cfg t id = Some (g, m) -> parser_for (rules_of t) cfg g id m.
Proof.
  intros cfg t id g m. unfold prepare, rules_of. destruct (parse_str [] t) as [rs| | |] eqn:E1; try discriminate.
  destruct (new_syntax rs) as [sy| | |] eqn:E2; try discriminate. destruct (compile cfg sy) as [g'| | |] eqn:E3; try discriminate.
  destruct (machine_new g' id) as [[m'|]| | |] eqn:E4; try discriminate. intros [= -> ->]. split; [eauto|]. split; [|exact E4].
  eapply lexed_no_dollar. exact E1.
Qed.
Definition parse_case (cfg : config) (t id : str) (debug : bool) (fuel : nat) (rd : mreader) : option (res (list event)) :=
  match prepare cfg t id with Some (g, m) => Some (fst (parser_parse debug g fuel m rd)) | None => None end.
Lemma parse_case_ok : forall cfg t id debug fuel rd x, parse_case cfg t id debug fuel rd = Some x ->
  exists g m, parser_for (rules_of t) cfg g id m /\ fst (parser_parse debug g fuel m rd) = x.
Proof.
  intros cfg t id debug fuel rd x. unfold parse_case. destruct (prepare cfg t id) as [(g & m)|] eqn:E; [|discriminate].
  intros [= <-]. exists g, m. split; [apply prepare_ok; exact E|reflexivity].
Qed.
Definition text_reader (s : str) : mreader := mr_of_text (loc_new []) s.
Lemma text_reader_ok : forall s, reader (text_reader s) /\ ending_of (text_reader s) = None /\ stand (text_reader s) = Pst s (loc_new []).
Proof. intros s. split; [apply rd_new|]. split; [reflexivity|]. unfold stand, unread. cbn. rewrite app_nil_r. reflexivity. Qed.
Definition tk (d c : N) (s : string) : event := EvToken (Loc [] 1 d) (Loc [] 1 c) (of_string s).
Definition bg (d c : N) (s : string) : event := EvBegin (Loc [] 1 d) (Loc [] 1 c) (of_string s).
Definition en (d c : N) (s : string) : event := EvEnd (Loc [] 1 d) (Loc [] 1 c) (of_string s).

(** C30.  Two readers at the same text and location, whatever their chunks, buffers and
    marks: the same result, and both are left at the same place. *)
Theorem C30_text_only : forall debug g fuel m r1 r2, reader r1 -> reader r2 ->
  stand r1 = stand r2 -> ending_of r1 = ending_of r2 ->
  fst (parser_parse debug g fuel m r1) = fst (parser_parse debug g fuel m r2) /\
  stand (snd (parser_parse debug g fuel m r1)) = stand (snd (parser_parse debug g fuel m r2)).
Proof. exact parse_same. Qed.
Print Assumptions C30_text_only.
(** One reader over "ab" in one piece, another over "xab" in three, "x" read under a mark. *)
Example C30_case : exists r1 r2, reader r1 /\ reader r2 /\ stand r1 = stand r2 /\ ending_of r1 = ending_of r2 /\
  ub_stack (mr_ub r1) <> ub_stack (mr_ub r2) /\ s_chunks (mr_src r1) <> s_chunks (mr_src r2) /\
  parse_case default_config (txt "S='a','x'|'ab';") (txt "S") true 100 r1 = Some (Ok [bg 1 2 "S"; tk 11 2 "ab"; en 1 4 "S"]) /\
  parse_case default_config (txt "S='a','x'|'ab';") (txt "S") true 100 r2 = Some (Ok [bg 1 2 "S"; tk 11 2 "ab"; en 1 4 "S"]).
Proof.
  pose (r0 := mr_new (loc_new []) (Src [txt "x"; txt "a"; txt "b"] None)).
  pose (x := perform true [OMark] r0). pose (y := perform true [ORead 1] (snd x)).
  exists (mr_new (Loc [] 1 2) (Src [txt "ab"] None)), (snd y).
  assert (H0 : reader r0) by apply rd_new.
  assert (H1 : reader (snd x)) by (eapply (rd_op true OMark r0 [AId 0%N]); [exact H0|vm_compute; reflexivity]).
  assert (H2 : reader (snd y)) by (eapply (rd_op true (ORead 1) (snd x) [AText [120%N]]); [exact H1|vm_compute; reflexivity]).
  split; [apply rd_new|]. split; [exact H2|]. split; [vm_compute; reflexivity|]. split; [vm_compute; reflexivity|].
  split; [vm_compute; discriminate|]. split; [vm_compute; discriminate|]. split; vm_compute; reflexivity.
Qed.

(** C31.  A result means the whole text was read and matched; a match that does not reach
    the end is an error at the first character left. *)
Theorem C31_result_means_all_read : forall debug g fuel m rd evs, reader rd ->
  fst (parser_parse debug g fuel m rd) = Ok evs ->
  ending_of rd = None /\ unread (snd (parser_parse debug g fuel m rd)) = [].
Proof. exact parse_all_read. Qed.
Print Assumptions C31_result_means_all_read.
Lemma left_over_pf : forall rs cfg g id m debug rd s' raw, parser_for rs cfg g id m -> reader rd -> ending_of rd = None ->
  means rs cfg id (stand rd) (Match s' raw) -> p_rest s' <> [] ->
  exists f0, forall fuel, f0 <= fuel -> fst (parser_parse debug g fuel m rd) = Err (wanted s' (of_string "EOF")).
Proof.
  intros rs cfg g id m debug rd s' raw Hp Hr He Hm Hne. destruct (parse_complete_api rs cfg g id m debug rd _ Hp Hr He Hm) as (f0 & Hf).
  exists f0. intros fuel Hle. specialize (Hf fuel Hle). cbn in Hf. destruct (p_rest s'); [contradiction|exact Hf].
Qed.
Theorem C31_left_over_is_error : forall rs cfg g id m debug rd s' raw, parser_for rs cfg g id m ->
  reader rd -> ending_of rd = None ->
  means rs cfg id (stand rd) (Match s' raw) -> p_rest s' <> [] ->
  exists f0, forall fuel, f0 <= fuel ->
    fst (parser_parse debug g fuel m rd) = Err (wanted s' (of_string "EOF")).
Proof. exact left_over_pf. Qed.
Print Assumptions C31_left_over_is_error.
(** Whatever [parse] answers, the semantics of the rules has a corresponding outcome. *)
Theorem C31_answers : forall rs cfg g id m debug fuel rd, parser_for rs cfg g id m ->
  reader rd -> ending_of rd = None ->
  match fst (parser_parse debug g fuel m rd) with
  | Ok evs => exists raw, means rs cfg id (stand rd) (Match (stand (snd (parser_parse debug g fuel m rd))) raw) /\
      evs = remove_empty_pairs raw
  | Err e => (exists s' raw, means rs cfg id (stand rd) (No e s' raw)) \/
      (exists s' raw, means rs cfg id (stand rd) (Match s' raw) /\ p_rest s' <> [] /\ e = wanted s' (of_string "EOF")) \/
      means rs cfg id (stand rd) (Halt (Failed e))
  | Panic p => means rs cfg id (stand rd) (Halt Crashed) \/
      (debug = true /\ exists s' raw, means rs cfg id (stand rd) (Match s' raw) /\
        removed_labels_agree (List.tl raw) = false /\ p_rest s' = [])
  | OutOfFuel => True
  end.
Proof. exact parse_sound_api. Qed.
Print Assumptions C31_answers.
(** ... and conversely, the outcome of the semantics decides what [parse] answers. *)
Theorem C31_decided : forall rs cfg g id m debug rd o, parser_for rs cfg g id m ->
  reader rd -> ending_of rd = None -> means rs cfg id (stand rd) o ->
  exists f0, forall fuel, f0 <= fuel ->
  match o with
  | Match s' raw =>
      match p_rest s' with
      | [] => fst (parser_parse debug g fuel m rd) =
              if (debug && negb (removed_labels_agree (List.tl raw)))%bool then Panic PDebugAssert
              else Ok (remove_empty_pairs raw)
      | _ => fst (parser_parse debug g fuel m rd) = Err (wanted s' (of_string "EOF"))
      end
  | No e s' raw => fst (parser_parse debug g fuel m rd) = Err e
  | Halt (Failed e) => fst (parser_parse debug g fuel m rd) = Err e
  | Halt Crashed => exists p, fst (parser_parse debug g fuel m rd) = Panic p
  end.
Proof. exact parse_complete_api. Qed.
Print Assumptions C31_decided.
(** The fuel is no part of the answer: whatever is answered is answered for all larger
    fuels, by any graph and on any reader. *)
Theorem C31_fuel : forall debug g fuel fuel' m rd, fuel <= fuel' ->
  fst (parser_parse debug g fuel m rd) <> OutOfFuel ->
  parser_parse debug g fuel' m rd = parser_parse debug g fuel m rd.
Proof. exact parse_more_fuel. Qed.
Print Assumptions C31_fuel.
Example C31_case :
  parse_case default_config (txt "S='a',{'b'};") (txt "S") true 100 (text_reader (txt "abb")) =
    Some (Ok [bg 1 1 "S"; tk 3 1 "a"; tk 8 2 "b"; tk 8 3 "b"; en 1 4 "S"]) /\
  parse_case default_config (txt "S='a',{'b'};") (txt "S") true 100 (text_reader (txt "abc")) =
    Some (Err (Error_ (Loc [] 1 3) (MExpected (txt "EOF") (Base.AText (txt "c") false)))).
Proof. split; vm_compute; reflexivity. Qed.

(** C33.  A definition-list matches as its first definition that matches, from the same
    place; the outcome is unique. *)
Theorem C33_first_definition : forall rs cfg ds s s' e,
  matches rs cfg (NDefs ds) s s' e <->
  exists pre d post, ds = pre ++ d :: post /\
    Forall (fun d => fails rs cfg (NSeq d) s) pre /\ matches rs cfg (NSeq d) s s' e.
Proof. exact defs_match. Qed.
Print Assumptions C33_first_definition.
Theorem C33_unique : forall rs cfg, no_repeat rs -> no_dollar rs ->
  forall n s o o', ev rs cfg n s o -> ev rs cfg n s o' -> o = o'.
Proof. intros rs cfg H1 H2 n s o o' A B. exact (ev_fun rs cfg H1 H2 n s o A o' B). Qed.
Print Assumptions C33_unique.
(** ... which is what [parse] does for the definitions of the rule asked for. *)
Lemma first_parse_pf : forall rs cfg g id m debug rd evs, parser_for rs cfg g id m -> reader rd -> ending_of rd = None ->
  ((exists f0, forall fuel, f0 <= fuel -> fst (parser_parse debug g fuel m rd) = Ok evs) <->
   exists r pre d post s' raw, names rs id r /\ r_defs r = pre ++ d :: post /\
     Forall (fun d => fails rs cfg (NSeq d) (stand rd)) pre /\ matches rs cfg (NSeq d) (stand rd) s' raw /\ p_rest s' = [] /\
     evs = remove_empty_pairs ((EvBegin (r_loc r) (p_at (stand rd)) (r_id r) :: raw) ++ [EvEnd (r_loc r) (p_at s') (r_id r)]) /\
     (debug = true -> removed_labels_agree (raw ++ [EvEnd (r_loc r) (p_at s') (r_id r)]) = true)).
Proof.
  intros rs cfg g id m debug rd evs Hp Hr He. pose proof (parser_unique _ _ _ _ _ Hp) as Hu. split.
  - intros (f0 & Hf0). pose proof (Hf0 f0 (le_n _)) as Hf. pose proof (parse_sound_api rs cfg g id m debug f0 rd Hp Hr He) as K.
    destruct (parse_all_read debug g f0 m rd evs Hr Hf) as (_ & Hall).
    rewrite Hf in K. destruct K as (raw0 & Hmn & ->). assert (Hag : debug = true -> removed_labels_agree (List.tl raw0) = true).
    { intros ->. destruct (parse_complete_api rs cfg g id m true rd _ Hp Hr He Hmn) as (f1 & Hf1). specialize (Hf1 (f0 + f1) ltac:(lia)). cbv iota in Hf1.
      change (p_rest (stand (snd (parser_parse true g f0 m rd)))) with (unread (snd (parser_parse true g f0 m rd))) in Hf1. rewrite Hall, Hf0 in Hf1 by lia.
      destruct (removed_labels_agree (List.tl raw0)); [reflexivity|discriminate]. }
    destruct Hmn as (r & Hn & K). inversion K; subst.
    match goal with A : names rs (r_id r) ?x, B : ev _ _ (NDefs (r_defs ?x)) _ (Match _ ?y) |- _ => rename x into r2, y into raw, A into Hn2, B into Hd end.
    assert (r2 = r). { eapply names_unique; [exact Hu|exact Hn2|]. split; [exact (proj1 Hn)|]. apply same_name_keyed. reflexivity. }
    subst r2. apply defs_match in Hd as (pre & d & post & E & Hpre & Hd). exists r, pre, d, post. eexists _, raw.
    split; [exact Hn|]. split; [exact E|]. split; [exact Hpre|]. split; [exact Hd|]. split; [exact Hall|]. split; [reflexivity|exact Hag].
  - intros (r & pre & d & post & s' & raw & Hn & E & Hpre & Hd & Hend & -> & Hag).
    assert (K : means rs cfg id (stand rd) (Match s' ((EvBegin (r_loc r) (p_at (stand rd)) (r_id r) :: raw) ++ [EvEnd (r_loc r) (p_at s') (r_id r)]))).
    { exists r. split; [exact Hn|]. eapply ev_ref.
      - split; [exact (proj1 Hn)|]. apply same_name_keyed. reflexivity.
      - apply defs_match. rewrite E. eauto 8. }
    destruct (parse_complete_api rs cfg g id m debug rd _ Hp Hr He K) as (f0 & Hf). exists f0. intros fuel Hle. specialize (Hf fuel Hle).
    cbv iota in Hf. rewrite Hend in Hf. cbn [List.tl app] in Hf. destruct debug; [rewrite (Hag eq_refl) in Hf|]; exact Hf.
Qed.
Theorem C33_parse_takes_first : forall rs cfg g id m debug rd evs, parser_for rs cfg g id m ->
  reader rd -> ending_of rd = None ->
  ((exists f0, forall fuel, f0 <= fuel -> fst (parser_parse debug g fuel m rd) = Ok evs) <->
   exists r pre d post s' raw, names rs id r /\ r_defs r = pre ++ d :: post /\
     Forall (fun d => fails rs cfg (NSeq d) (stand rd)) pre /\
     matches rs cfg (NSeq d) (stand rd) s' raw /\ p_rest s' = [] /\
     evs = remove_empty_pairs ((EvBegin (r_loc r) (p_at (stand rd)) (r_id r) :: raw) ++
                               [EvEnd (r_loc r) (p_at s') (r_id r)]) /\
     (debug = true -> removed_labels_agree (raw ++ [EvEnd (r_loc r) (p_at s') (r_id r)]) = true)).
Proof. exact first_parse_pf. Qed.
Print Assumptions C33_parse_takes_first.
(** The first definition wins even when only the second would reach the end. *)
Example C33_case :
  parse_case default_config (txt "S='x','y'|'a'|'ab';") (txt "S") true 100 (text_reader (txt "a")) =
    Some (Ok [bg 1 1 "S"; tk 11 1 "a"; en 1 2 "S"]) /\
  parse_case default_config (txt "S='x','y'|'a'|'ab';") (txt "S") true 100 (text_reader (txt "ab")) =
    Some (Err (Error_ (Loc [] 1 2) (MExpected (txt "EOF") (Base.AText (txt "b") false)))).
Proof. split; vm_compute; reflexivity. Qed.

(** C38.  When, after some rounds that moved, the body of a repeated-sequence matches
    without moving, that is the Livelock error there. *)
Lemma livelock_pf : forall rs cfg d l s k s1 e1 s2 e2, strides rs cfg (NDefs d) k s s1 e1 -> (N.of_nat k < max_count)%N ->
  matches rs cfg (NDefs d) s1 s2 e2 -> p_at s2 = p_at s1 ->
  halts rs cfg (NPrim (PRepeated l d)) s (Error_ (p_at s1) MLivelock).
Proof. intros. apply ev_repeated. eapply strides_livelock; eauto. Qed.
Theorem C38_livelock : forall rs cfg d l s k s1 e1 s2 e2,
  strides rs cfg (NDefs d) k s s1 e1 -> (N.of_nat k < max_count)%N ->
  matches rs cfg (NDefs d) s1 s2 e2 -> p_at s2 = p_at s1 ->
  halts rs cfg (NPrim (PRepeated l d)) s (Error_ (p_at s1) MLivelock).
Proof. exact livelock_pf. Qed.
Print Assumptions C38_livelock.
(** It stops the parse. *)
Lemma livelock_parse_pf : forall rs cfg g id m debug rd r d l ts more k s1 e1 s2 e2, parser_for rs cfg g id m -> reader rd -> ending_of rd = None ->
  names rs id r -> r_defs r = (Term (Factor 1 (PRepeated l d)) None :: ts) :: more ->
  strides rs cfg (NDefs d) k (stand rd) s1 e1 -> (N.of_nat k < max_count)%N -> matches rs cfg (NDefs d) s1 s2 e2 -> p_at s2 = p_at s1 ->
  exists f0, forall fuel, f0 <= fuel -> fst (parser_parse debug g fuel m rd) = Err (Error_ (p_at s1) MLivelock).
Proof.
  intros rs cfg g id m debug rd r d l ts more k s1 e1 s2 e2 Hp Hr He Hn Hd Hs Hk Hm Hat.
  assert (K : means rs cfg id (stand rd) (Halt (Failed (Error_ (p_at s1) MLivelock)))).
  { exists r. split; [exact Hn|]. eapply ev_ref_halt; [split; [exact (proj1 Hn)|apply same_name_keyed; reflexivity]|]. rewrite Hd.
    assert (HS : ev rs cfg (NSeq (Term (Factor 1 (PRepeated l d)) None :: ts)) (stand rd) (Halt (Failed (Error_ (p_at s1) MLivelock)))).
    { apply ev_seq_halt; [reflexivity|]. apply ev_term_plain, ev_factor_one. eapply livelock_pf; eauto. }
    destruct more; [apply ev_defs_one; exact HS|]. apply ev_defs_halt, ev_alts_halt. exact HS. }
  destruct (parse_complete_api rs cfg g id m debug rd _ Hp Hr He K) as (f0 & Hf). exists f0. exact Hf.
Qed.
Theorem C38_livelock_stops_parse : forall rs cfg g id m debug rd r d l ts more k s1 e1 s2 e2,
  parser_for rs cfg g id m -> reader rd -> ending_of rd = None ->
  names rs id r -> r_defs r = (Term (Factor 1 (PRepeated l d)) None :: ts) :: more ->
  strides rs cfg (NDefs d) k (stand rd) s1 e1 -> (N.of_nat k < max_count)%N ->
  matches rs cfg (NDefs d) s1 s2 e2 -> p_at s2 = p_at s1 ->
  exists f0, forall fuel, f0 <= fuel ->
    fst (parser_parse debug g fuel m rd) = Err (Error_ (p_at s1) MLivelock).
Proof. exact livelock_parse_pf. Qed.
Print Assumptions C38_livelock_stops_parse.
(** So a repeated-sequence always comes to an end if its body does wherever it is tried. *)
Lemma no_endless_loop_pf : forall rs cfg l d s, (forall s', (exists w, goes s w s') -> exists o, ev rs cfg (NDefs d) s' o) -> exists o, ev rs cfg (NPrim (PRepeated l d)) s o.
Proof.
  intros rs cfg l d s H. destruct (repeated_ends rs cfg (NDefs d) _ 0 s (le_n _) H) as (o & Ho). exists o. apply ev_repeated. exact Ho.
Qed.
Theorem C38_no_endless_loop : forall rs cfg l d s,
  (forall s', (exists w, goes s w s') -> exists o, ev rs cfg (NDefs d) s' o) ->
  exists o, ev rs cfg (NPrim (PRepeated l d)) s o.
Proof. exact no_endless_loop_pf. Qed.
Print Assumptions C38_no_endless_loop.
Example C38_case :
  parse_case default_config (txt "S={'a'|['b']},'c';") (txt "S") true 100 (text_reader (txt "aab")) =
    Some (Err (Error_ (Loc [] 1 4) MLivelock)) /\
  (forall s', (exists w, goes (Pst (txt "aab") (loc_new [])) w s') -> exists o, ev [] default_config (NDefs [[Term (Factor 1 (PTerminal (loc_new []) (txt "a"))) None]]) s' o).
Proof.
  split; [vm_compute; reflexivity|]. intros s' _.
  assert (H : (exists s2, goes s' (txt "a") s2) \/ (forall s2, ~ goes s' (txt "a") s2)).
  { destruct (p_rest s') as [|c rr] eqn:E; [right; intros s2 (Z & _); rewrite E in Z; discriminate|].
    destruct (N.eq_dec c 97) as [->|Hne].
    - left. exists (move 1 s'). pose proof (move_goes 1 s') as Hm. rewrite E in Hm. exact Hm.
    - right. intros s2 (Z & _). rewrite E in Z. injection Z as Z _. contradiction. }
  destruct H as [(s2 & H)|H]; eexists; apply ev_defs_one.
  - eapply (ev_seq _ _ _ _ _ _ _ (Match s2 [])); [reflexivity|apply ev_term_plain, ev_factor_one, ev_terminal; exact H|apply ev_seq_nil].
  - eapply ev_seq_no; [reflexivity|apply ev_term_plain, ev_factor_one, ev_terminal_no; exact H].
Qed.

(** C39.  'n * x' is exactly n consecutive x. *)
Theorem C39_exact_count : forall rs cfg n p s s' e, n <> max_count ->
  (matches rs cfg (NFactor (Factor n p)) s s' e <-> rounds rs cfg (NPrim p) (N.to_nat n) s s' e).
Proof. exact factor_rounds. Qed.
Print Assumptions C39_exact_count.
(** '[x]' is x if x matches and nothing otherwise (but events of the failed attempt may
    be kept, see C35). *)
Theorem C39_optional : forall rs cfg l d s s' e,
  matches rs cfg (NPrim (POptional l d)) s s' e <->
  matches rs cfg (NDefs d) s s' e \/ (s' = s /\ exists l2 s2, ev rs cfg (NDefs d) s (No l2 s2 e)).
Proof. exact optional_iff. Qed.
Print Assumptions C39_optional.
(** '{x}' is as many x as match, one after the other, each moving (C38); or as many as
    the counter allows. *)
Lemma greedy_pf : forall rs cfg l d s s' e, matches rs cfg (NPrim (PRepeated l d)) s s' e <->
  exists k e1, strides rs cfg (NDefs d) k s s' e1 /\
    ((N.of_nat k = max_count /\ e = e1) \/
     ((N.of_nat k < max_count)%N /\ exists l2 s2 e2, ev rs cfg (NDefs d) s' (No l2 s2 e2) /\ e = e1 ++ e2)).
Proof.
  intros rs cfg l d s s' e. pose proof (strides_iff rs cfg (NDefs d) 0 s s' e) as K. cbn [N.add] in K. rewrite <- K by (unfold max_count; lia).
  split; [intros H; inversion H; subst; assumption|intros H; apply ev_repeated; exact H].
Qed.
Theorem C39_greedy : forall rs cfg l d s s' e,
  matches rs cfg (NPrim (PRepeated l d)) s s' e <->
  exists k e1, strides rs cfg (NDefs d) k s s' e1 /\
    ((N.of_nat k = max_count /\ e = e1) \/
     ((N.of_nat k < max_count)%N /\
      exists l2 s2 e2, ev rs cfg (NDefs d) s' (No l2 s2 e2) /\ e = e1 ++ e2)).
Proof. exact greedy_pf. Qed.
Print Assumptions C39_greedy.
Example C39_case :
  parse_case default_config (txt "S=2*'a',['b'],{'c'},0*'d','c';") (txt "S") true 100 (text_reader (txt "aacc")) =
    Some (Err (Error_ (Loc [] 1 5) (MExpected (debug_str (txt "c")) Base.AEof))) /\
  parse_case default_config (txt "S=2*'a',['b'],{'c'},0*'d','e';") (txt "S") true 100 (text_reader (txt "aacce")) =
    Some (Ok [bg 1 1 "S"; tk 5 1 "a"; tk 5 2 "a"; tk 16 3 "c"; tk 16 4 "c"; tk 27 5 "e"; en 1 6 "S"]).
Proof. split; vm_compute; reflexivity. Qed.

(** C40. *)
Theorem C40_exception_match : forall rs cfg f x s s' e,
  matches rs cfg (NTerm (Term f (Some x))) s s' e <->
  exists w o, matches rs cfg (NFactor f) s s' e /\ goes s w s' /\
    ev rs cfg (NFactor x) (Pst w (p_at s)) o /\
    ((exists s2 e2, o = Match s2 e2 /\ p_rest s2 <> []) \/ (exists l s2 e2, o = No l s2 e2)).
Proof. exact except_match. Qed.
Print Assumptions C40_exception_match.
Theorem C40_exception_fail : forall rs cfg f x s er,
  fails_with rs cfg (NTerm (Term f (Some x))) s er <->
  fails_with rs cfg (NFactor f) s er \/
  (er = wanted s (show_term (Term f (Some x))) /\ exists w s' e s2 e2, matches rs cfg (NFactor f) s s' e /\ goes s w s' /\
     matches rs cfg (NFactor x) (Pst w (p_at s)) s2 e2 /\ p_rest s2 = []).
Proof. exact except_no. Qed.
Print Assumptions C40_exception_fail.
Definition line_config : config := fun _ _ => ScChars (fun c => negb (N.eqb c 46)) None None.
Example C40_case :
  let nl := [97%N; 10%N; 98%N; 10%N; 46%N] in
  parse_case line_config (txt "S=? any ? - ('a'|'ab'),'.';") (txt "S") true 100 (text_reader nl) =
    Some (Ok [bg 1 1 "S"; EvToken (Loc [] 1 3) (loc_new []) [97%N; 10%N; 98%N; 10%N]; EvToken (Loc [] 1 24) (Loc [] 3 1) [46%N];
              EvEnd (Loc [] 1 1) (Loc [] 3 2) (txt "S")]) /\
  parse_case line_config (txt "S=? any ? - ('xb'|'ab'),'.';") (txt "S") true 100 (text_reader (txt "ab.")) =
    Some (Err (Error_ (loc_new []) (MExpected (txt "? any ?-('xb'|'ab')") (Base.AText (txt "ab.") false)))).
Proof. split; vm_compute; reflexivity. Qed.

(** C41. *)
Theorem C41_furthest_failure : forall rs cfg ds s x s' e, ev rs cfg (NDefs ds) s (No x s' e) ->
  exists ls, Forall2 (fun d l => fails_at rs cfg (NSeq d) s l) ds ls /\ greatest (e_loc x) ls.
Proof. exact defs_no_at. Qed.
Print Assumptions C41_furthest_failure.
Theorem C41_all_fail : forall rs cfg ds s, ds <> [] -> Forall (fun d => fails rs cfg (NSeq d) s) ds ->
  exists x s' e, ev rs cfg (NDefs ds) s (No x s' e).
Proof. exact all_fail. Qed.
Print Assumptions C41_all_fail.
Lemma furthest_parse_pf : forall rs cfg g id m debug rd r, parser_for rs cfg g id m -> reader rd -> ending_of rd = None ->
  names rs id r -> r_defs r <> [] -> Forall (fun d => fails rs cfg (NSeq d) (stand rd)) (r_defs r) ->
  exists ls l, Forall2 (fun d l => fails_at rs cfg (NSeq d) (stand rd) l) (r_defs r) ls /\ greatest l ls /\
  exists f0, forall fuel, f0 <= fuel -> exists e, fst (parser_parse debug g fuel m rd) = Err e /\ e_loc e = l.
Proof.
  intros rs cfg g id m debug rd r Hp Hr He Hn Hne Hf. destruct (all_fail rs cfg _ _ Hne Hf) as (l & s' & e & Hev).
  destruct (defs_no_at _ _ _ _ _ _ _ Hev) as (ls & HF & Hg). exists ls, (e_loc l). split; [exact HF|]. split; [exact Hg|].
  assert (K : means rs cfg id (stand rd) (No l s' [])).
  { exists r. split; [exact Hn|]. eapply ev_ref_no; [split; [exact (proj1 Hn)|apply same_name_keyed; reflexivity]|exact Hev]. }
  destruct (parse_complete_api rs cfg g id m debug rd _ Hp Hr He K) as (f0 & H). exists f0. intros fuel Hle. exists l. split; [exact (H fuel Hle)|reflexivity].
Qed.
Theorem C41_parse_reports_furthest : forall rs cfg g id m debug rd r, parser_for rs cfg g id m ->
  reader rd -> ending_of rd = None ->
  names rs id r -> r_defs r <> [] -> Forall (fun d => fails rs cfg (NSeq d) (stand rd)) (r_defs r) ->
  exists ls l, Forall2 (fun d l => fails_at rs cfg (NSeq d) (stand rd) l) (r_defs r) ls /\ greatest l ls /\
  exists f0, forall fuel, f0 <= fuel -> exists e, fst (parser_parse debug g fuel m rd) = Err e /\ e_loc e = l.
Proof. exact furthest_parse_pf. Qed.
Print Assumptions C41_parse_reports_furthest.
Example C41_case :
  parse_case default_config (txt "S='x'|'a','b','c'|'a','c';") (txt "S") true 100 (text_reader (txt "abd")) =
    Some (Err (Error_ (Loc [] 1 3) (MExpected (debug_str (txt "c")) (Base.AText (txt "d") false)))).
Proof. vm_compute; reflexivity. Qed.

(** C42. *)
Lemma parser_exists_pf : forall rs sy cfg g id, new_syntax rs = Ok sy -> no_dollar rs -> compile cfg sy = Ok g ->
  (exists m r, machine_new g id = Ok (Some m) /\ names rs id r /\ mc_id m = r_id r) \/
  (machine_new g id = Ok None /\ ~ defined rs id).
Proof.
  intros rs sy cfg g id H1 H2 H3. pose proof (machine_new_cases cfg rs g id (CodeFacts.compile_faithful _ _ _ _ H1 H2 H3) H2) as K.
  destruct (machine_new g id) as [[m|]| | |]; try contradiction.
  - left. destruct K as (r & K1 & K2 & _). eauto 6.
  - right. auto.
Qed.
Theorem C42_parser_exists : forall rs sy cfg g id, new_syntax rs = Ok sy -> no_dollar rs -> compile cfg sy = Ok g ->
  (exists m r, machine_new g id = Ok (Some m) /\ names rs id r /\ mc_id m = r_id r) \/
  (machine_new g id = Ok None /\ ~ defined rs id).
Proof. exact parser_exists_pf. Qed.
Print Assumptions C42_parser_exists.
(** The hypothesis on dollar signs holds for rules read from a text. *)
Theorem C42_no_dollar_from_text : forall name s rs, parse_str name s = Ok rs -> no_dollar rs.
Proof. exact lexed_no_dollar. Qed.
Print Assumptions C42_no_dollar_from_text.
Example C42_case : exists g, (exists m, prepare default_config (txt "a b='x';c=a b;") (txt "ab") = Some (g, m) /\ mc_id m = txt "a b") /\
  prepare default_config (txt "a b='x';c=a b;") (txt "d") = None /\ machine_new g (txt "d") = Ok None.
Proof. eexists. split; [eexists; split; vm_compute; reflexivity|]. split; vm_compute; reflexivity. Qed.

(** C44.  On any reader, with enough fuel. *)
Theorem C44_chars_scanner : forall debug fuel pred mn mx def rd, reader rd -> ending_of rd = None ->
  length (unread rd) < fuel ->
  exists w s', longest_run pred mx (stand rd) w s' /\
    ((too_short mn w /\ exists rd', chars_scan debug fuel pred mn mx def rd = (Ok RUnmatch, rd') /\
        stand rd' = stand rd) \/
     (~ too_short mn w /\ exists rd',
        chars_scan debug fuel pred mn mx def rd = (Ok (RMatch [EvToken def (p_at (stand rd)) w]), rd') /\
        stand rd' = s')).
Proof. exact chars_scanner. Qed.
Print Assumptions C44_chars_scanner.
Example C44_case : let p c := N.leb 97 c in
  fst (chars_scan true 10 p (Some 2%N) (Some 3%N) (loc_new []) (text_reader (txt "abcd1"))) = Ok (RMatch [EvToken (loc_new []) (loc_new []) (txt "abc")]) /\
  fst (chars_scan true 10 p (Some 2%N) (Some 3%N) (loc_new []) (text_reader (txt "a1"))) = Ok RUnmatch.
Proof. split; vm_compute; reflexivity. Qed.

(** C45.  With a mark outstanding, as always during a parse.  The regular expression
    engine is any function [find]. *)
Theorem C45_regex_scanner : forall debug re find def rd, reader rd -> ending_of rd = None ->
  ub_stack (mr_ub rd) <> [] ->
  exists rd',
    match find (window (stand rd)) with
    | Some (0, len) =>
        let w := firstn len (window (stand rd)) in
        if Nat.leb (length w) 256 then
          special_scan debug 0 (ScRegex re find) def rd = (Ok (RMatch [EvToken def (p_at (stand rd)) w]), rd') /\
          goes (stand rd) w (stand rd')
        else special_scan debug 0 (ScRegex re find) def rd = (Err (Error_ (p_at (stand rd)) MRegexTooLong), rd')
    | _ => special_scan debug 0 (ScRegex re find) def rd = (Ok RUnmatch, rd') /\ stand rd' = stand rd
    end.
Proof. exact regex_scanner. Qed.
Print Assumptions C45_regex_scanner.
Example C45_case : let rd := snd (perform true [OMark] (text_reader (txt "12ab"))) in
  let find := fun t : str => match t with (49%N :: 50%N :: _) => Some (0, 2) | _ => None end in
  reader rd /\ ub_stack (mr_ub rd) <> [] /\
  fst (special_scan true 0 (ScRegex [] find) (loc_new []) rd) = Ok (RMatch [EvToken (loc_new []) (loc_new []) (txt "12")]) /\
  unread (snd (special_scan true 0 (ScRegex [] find) (loc_new []) rd)) = txt "ab".
Proof.
  split; [eapply (rd_op true OMark (text_reader (txt "12ab"))); [apply rd_new|vm_compute; reflexivity]|].
  split; [vm_compute; discriminate|]. split; vm_compute; reflexivity.
Qed.

(** C46 is false: a special sequence that forwards to a rule matches even where the rule
    does not ("" is accepted by S although X needs an 'a'). *)
Definition forwarding (target : str) : config := fun _ _ => ScUser (txt "fwd") (fun _ => SpRet (RForward target)).
Theorem C46_forward_is_reference_refuted : exists ebnf target input evs e,
  parse_case (forwarding target) ebnf (txt "S") true 100 (text_reader input) = Some (Ok evs) /\
  parse_case (forwarding target) ebnf target true 100 (text_reader input) = Some (Err e) /\
  rules_of ebnf = [Rule (Loc [] 1 1) (txt "S") [[Term (Factor 1 (PSpecial (Loc [] 1 3) (txt " x "))) None]];
                   Rule (Loc [] 1 10) target [[Term (Factor 1 (PTerminal (Loc [] 1 12) (txt "a"))) None]]].
Proof.
  exists (txt "S=? x ?; X='a';"), (txt "X"), [], [bg 1 1 "S"; en 1 1 "S"], (Error_ (Loc [] 1 1) (MExpected (debug_str (txt "a")) Base.AEof)).
  split; [vm_compute; reflexivity|]. split; [vm_compute; reflexivity|]. vm_compute; reflexivity.
Qed.
Print Assumptions C46_forward_is_reference_refuted.
(** What holds: where the rule matches or stops the parse, so does the special sequence,
    in the same way (without the Begin and End of a reference). *)
Lemma forward_pf : forall rs cfg l c s id r o, scanned (cfg l c) l s (SForward id s) -> names rs id r -> (forall e s' x, o <> No e s' x) ->
  ev rs cfg (NDefs (r_defs r)) s o -> ev rs cfg (NPrim (PSpecial l c)) s o.
Proof.
  intros rs cfg l c s id r o H Hn Ho He. destruct o as [s' x|e s' x|h].
  - eapply ev_forward; [exact H|]. eapply ev_fwd; eauto.
  - exfalso. eapply Ho. reflexivity.
  - eapply ev_forward_halt; [exact H|]. eapply ev_fwd; eauto.
Qed.
Theorem C46_forward : forall rs cfg l c s id r o,
  scanned (cfg l c) l s (SForward id s) -> names rs id r -> (forall e s' x, o <> No e s' x) ->
  ev rs cfg (NDefs (r_defs r)) s o -> ev rs cfg (NPrim (PSpecial l c)) s o.
Proof. exact forward_pf. Qed.
Print Assumptions C46_forward.
(** ... and with a leading dollar sign it is exactly a reference, where that matches. *)
Lemma forward_dollar_pf : forall rs cfg l c s id r s' e, scanned (cfg l c) l s (SForward (36%N :: id) s) -> names rs id r ->
  matches rs cfg (NRef (r_loc r) (r_id r)) s s' e -> matches rs cfg (NPrim (PSpecial l c)) s s' e.
Proof.
  intros rs cfg l c s id r s' e H Hn He. eapply ev_forward; [exact H|]. eapply ev_fwd_alias; [exact (proj1 Hn)| |exact He].
  apply dollar_name. exact (proj2 Hn).
Qed.
Theorem C46_forward_dollar : forall rs cfg l c s id r s' e,
  scanned (cfg l c) l s (SForward (36%N :: id) s) -> names rs id r ->
  matches rs cfg (NRef (r_loc r) (r_id r)) s s' e -> matches rs cfg (NPrim (PSpecial l c)) s s' e.
Proof. exact forward_dollar_pf. Qed.
Print Assumptions C46_forward_dollar.
Example C46_case :
  parse_case (forwarding (txt "X")) (txt "S=? x ?; X='a';") (txt "S") true 100 (text_reader (txt "a")) =
    Some (Ok [bg 1 1 "S"; tk 12 1 "a"; en 1 2 "S"]) /\
  parse_case (forwarding (txt "$X")) (txt "S=? x ?; X='a';") (txt "S") true 100 (text_reader (txt "a")) =
    Some (Ok [bg 1 1 "S"; bg 10 1 "X"; tk 12 1 "a"; en 10 2 "X"; en 1 2 "S"]).
Proof. split; vm_compute; reflexivity. Qed.
