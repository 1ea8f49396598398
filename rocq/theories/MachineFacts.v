(** Parses of a compiled syntax. *)
From Coq Require Import String List NArith Arith Bool Lia.
From Verif Require Import Base Ident Tokenizer Ast Lex Syntax Io Graph Machine SpecText SpecSyntax SpecIo SpecTok SpecTree TextFacts TreeFacts SyntaxFacts IoFacts SpecParse SpecMachine Pure PureFacts ParseFacts CodeFacts RunFacts RunComplete EvFacts.
Import ListNotations.
Open Scope nat_scope.

Lemma stand_rep : forall T E l0 r c, rep T E l0 r c -> stand r = st T l0 (c_pos c) /\ ending_of r = E.
Proof. intros T E l0 r c (base & R). destruct R. unfold stand, unread, st. rewrite rp_rest, rp_loc. auto. Qed.
Lemma reader_rep : forall r, reader r -> exists T l0 c, rep T (ending_of r) l0 r c.
Proof.
  intros r H.
  enough (K : exists T E l0 c, rep T E l0 r c).
  { destruct K as (T & E & l0 & c & R). destruct (stand_rep _ _ _ _ _ R) as (_ & ->). eauto. }
  induction H as [l0 chunks ending|debug o r an r' _ IH Hp|debug g fuel m r _ IH].
  - eexists _, _, _, _. apply rep_new.
  - destruct IH as (T & E & l0 & c & R). destruct (rep_done _ _ _ _ _ _ _ _ _ R Hp) as (c' & _ & R'). eauto.
  - destruct IH as (T & E & l0 & c & R). destruct (parse_pure debug g fuel (mc_entry m) _ _ _ _ _ R) as (r' & c' & K1 & K2 & _).
    unfold parser_parse. rewrite K1. cbn. eauto.
Qed.
Lemma parse_reader : forall debug g fuel m r, reader r ->
  fst (parser_parse debug g fuel m r) = fst (pmachine_parse g debug fuel (ending_of r) (mc_entry m) (stand r)) /\
  stand (snd (parser_parse debug g fuel m r)) = snd (pmachine_parse g debug fuel (ending_of r) (mc_entry m) (stand r)) /\
  ending_of (snd (parser_parse debug g fuel m r)) = ending_of r.
Proof.
  intros debug g fuel m r H. destruct (reader_rep r H) as (T & l0 & c & R). destruct (stand_rep _ _ _ _ _ R) as (Hs & _).
  destruct (parse_pure debug g fuel (mc_entry m) _ _ _ _ _ R) as (r' & c' & K1 & K2 & K3). destruct (stand_rep _ _ _ _ _ K2) as (Hs' & He).
  unfold parser_parse. rewrite K1. cbn [fst snd]. rewrite Hs, Hs', He, K3. auto.
Qed.

(** The parser of a rule. *)
Definition parser_of (g : graph) (r : rule) (m : machine) : Prop :=
  mc_id m = r_id r /\ at_ (g_instrs g) (mc_entry m) None (StAlias (r_id r)) (r_loc r) (r_id r).
Lemma dollar_name : forall id r, dollar (36%N :: id) r <-> same_name id (r_id r).
Proof.
  intros id r. unfold dollar. rewrite !same_name_keyed. change (keyed (36%N :: id)) with (36%N :: keyed id).
  change (keyed (36%N :: r_id r)) with (36%N :: keyed (r_id r)). split; [intros E; injection E; auto|congruence].
Qed.
Lemma machine_new_cases : forall cfg rs g id, faithful cfg rs g -> no_dollar rs ->
  match machine_new g id with
  | Ok (Some m) => exists r, names rs id r /\ parser_of g r m
  | Ok None => ~ defined rs id
  | _ => False
  end.
Proof.
  intros cfg rs g id Hg Hd. unfold machine_new. destruct (defined_dec rs id) as [(r & Hr)|Hu].
  - destruct (Hg (36%N :: id)) as (_ & HB & _). destruct (HB r (proj1 Hr) (proj2 (dollar_name _ _) (proj2 Hr))) as (a & Hla & Ha). rewrite Hla.
    destruct (Hg id) as (HA & _). destruct (HA r Hr) as (b & _ & _ & ->). exists r. split; [exact Hr|]. split; [reflexivity|exact Ha].
  - destruct (Hg (36%N :: id)) as (_ & _ & _ & HD). rewrite HD; [exact Hu| |].
    + intros (r & Hin & Hs). apply (Hd r id Hin). apply same_name_keyed. apply same_name_keyed in Hs. auto.
    + intros r Hin Hr. apply Hu. exists r. split; [exact Hin|]. apply dollar_name. exact Hr.
Qed.

Section Parse.
Variable rs : list rule.
Variable cfg : config.
Variable g : graph.
Hypothesis Hg : faithful cfg rs g.
Notation ev := (ev rs cfg).

(** Soundness on a complete text. *)
Lemma pparse_sound : forall debug fuel m r s, parser_of g r m ->
  match fst (pmachine_parse g debug fuel None (mc_entry m) s) with
  | Ok evs => exists s' raw, ev (NRef (r_loc r) (r_id r)) s (Match s' raw) /\ p_rest s' = [] /\ evs = remove_empty_pairs raw /\
      snd (pmachine_parse g debug fuel None (mc_entry m) s) = s'
  | Err e => (exists s' raw, ev (NRef (r_loc r) (r_id r)) s (No e s' raw)) \/
      (exists s' raw, ev (NRef (r_loc r) (r_id r)) s (Match s' raw) /\ p_rest s' <> [] /\ e = wanted s' (of_string "EOF")) \/
      ev (NRef (r_loc r) (r_id r)) s (Halt (Failed e))
  | Panic p => ev (NRef (r_loc r) (r_id r)) s (Halt Crashed) \/
      (debug = true /\ p = PDebugAssert /\ exists s' raw, ev (NRef (r_loc r) (r_id r)) s (Match s' raw) /\ removed_labels_agree (List.tl raw) = false /\ p_rest s' = [])
  | OutOfFuel => True
  end.
Proof.
  intros debug fuel m r s (_ & Ha). unfold pmachine_parse.
  assert (Hx : fst (prun g fuel None (Some (mc_entry m)) [] s) = OutOfFuel \/
     exists o, ev (NRef (r_loc r) (r_id r)) s o /\ answers (prun g fuel None (Some (mc_entry m)) [] s) [] o).
  { destruct fuel as [|f]; [left; reflexivity|].
    destruct (fst (prun g (S f) None (Some (mc_entry m)) [] s)) eqn:E; [right|right|right|left; reflexivity].
    all: assert (Hne : fst (prun g (S f) None (Some (mc_entry m)) [] s) <> OutOfFuel) by congruence;
      destruct (ref_sound rs cfg g Hg f _ _ _ _ _ [] s (sound_run rs cfg g Hg f) Ha Hne) as (o & Ho & Hans); exists o; split; [exact Ho|];
      destruct o as [s' e'|l' s' e'|h]; auto; rewrite Hans in *; destruct f; [contradiction|reflexivity]. }
  destruct Hx as [Hx|(o & Ho & Hx)].
  { destruct (prun g fuel None (Some (mc_entry m)) [] s) as (x & s1) eqn:E. cbn in Hx. subst x. rewrite (pbind_fuel _ _ _ _ E). exact I. }
  destruct o as [s' e|l s' e|[e|]]; cbn [answers app] in Hx.
  - rewrite (pbind_ok _ _ _ _ _ Hx). rewrite (pbind_ok _ _ _ _ _ (peof_none s')). destruct (p_rest s') as [|c rr] eqn:Er.
    + destruct debug; cbn [andb].
      * destruct (removed_labels_agree (List.tl e)) eqn:El; cbn [negb fst pret pcrash].
        -- exists s', e. auto.
        -- right. split; [reflexivity|]. split; [reflexivity|]. exists s', e. auto.
      * exists s', e. auto.
    + rewrite (pbind_ok _ _ _ _ _ (pexpected_none g None s')). right. left. exists s', e.
      split; [exact Ho|]. rewrite Er. split; [discriminate|reflexivity].
  - destruct Hx as (er & -> & Hx). rewrite (pbind_ok _ _ _ _ _ Hx). cbn. left. exists s', e. exact Ho.
  - destruct Hx as (s' & Hx). rewrite (pbind_err _ _ _ _ _ Hx). cbn. auto.
  - destruct Hx as (p & s' & Hx). rewrite (pbind_panic _ _ _ _ _ Hx). cbn. auto.
Qed.
(** Completeness. *)
Lemma pparse_complete : forall debug m r s o, parser_of g r m -> ev (NRef (r_loc r) (r_id r)) s o ->
  exists f0, forall fuel, f0 <= fuel ->
  match o with
  | Match s' raw => match p_rest s' with
      | [] => pmachine_parse g debug fuel None (mc_entry m) s =
              (if (debug && negb (removed_labels_agree (List.tl raw)))%bool then Panic PDebugAssert else Ok (remove_empty_pairs raw), s')
      | _ => pmachine_parse g debug fuel None (mc_entry m) s = (Err (wanted s' (of_string "EOF")), s')
      end
  | No e s' raw => pmachine_parse g debug fuel None (mc_entry m) s = (Err e, s')
  | Halt (Failed e) => fst (pmachine_parse g debug fuel None (mc_entry m) s) = Err e
  | Halt Crashed => exists p, fst (pmachine_parse g debug fuel None (mc_entry m) s) = Panic p
  end.
Proof.
  intros debug m r s o (_ & Ha) Ho. pose proof (complete_run rs cfg g Hg _ _ _ Ho (mc_entry m) None _ [] Ha) as Hc.
  apply concl_none in Hc. destruct Hc as (f0 & Hf). exists f0. intros fuel Hle. specialize (Hf fuel Hle). unfold pmachine_parse.
  destruct o as [s' e|l s' e|[e|]]; cbn [answers app] in Hf.
  - destruct (p_rest s') as [|c rr] eqn:Er.
    + rewrite (pbind_ok _ _ _ _ _ Hf). rewrite (pbind_ok _ _ _ _ _ (peof_none s')). rewrite Er.
      destruct (debug && negb (removed_labels_agree (List.tl e)))%bool; reflexivity.
    + rewrite (pbind_ok _ _ _ _ _ Hf). rewrite (pbind_ok _ _ _ _ _ (peof_none s')). rewrite Er.
      rewrite (pbind_ok _ _ _ _ _ (pexpected_none g None s')). reflexivity.
  - destruct Hf as (er & -> & Hx). rewrite (pbind_ok _ _ _ _ _ Hx). reflexivity.
  - destruct Hf as (s' & Hx). rewrite (pbind_err _ _ _ _ _ Hx). reflexivity.
  - destruct Hf as (p & s' & Hx). rewrite (pbind_panic _ _ _ _ _ Hx). exists p. reflexivity.
Qed.
End Parse.

(** ** The API *)
Lemma parse_same : forall debug g fuel m r1 r2, reader r1 -> reader r2 -> stand r1 = stand r2 -> ending_of r1 = ending_of r2 ->
  fst (parser_parse debug g fuel m r1) = fst (parser_parse debug g fuel m r2) /\
  stand (snd (parser_parse debug g fuel m r1)) = stand (snd (parser_parse debug g fuel m r2)).
Proof.
  intros debug g fuel m r1 r2 H1 H2 Hs He. destruct (parse_reader debug g fuel m r1 H1) as (A & B & _). destruct (parse_reader debug g fuel m r2 H2) as (A2 & B2 & _).
  rewrite A, A2, B, B2, Hs, He. auto.
Qed.
Lemma parse_all_read : forall debug g fuel m rd evs, reader rd -> fst (parser_parse debug g fuel m rd) = Ok evs ->
  ending_of rd = None /\ unread (snd (parser_parse debug g fuel m rd)) = [].
Proof.
  intros debug g fuel m rd evs Hr H. destruct (parse_reader debug g fuel m rd Hr) as (A & B & _). rewrite A in H. change (unread (snd (parser_parse debug g fuel m rd))) with
    (p_rest (stand (snd (parser_parse debug g fuel m rd)))). rewrite B. clear A B. unfold pmachine_parse in *.
  destruct (prun g fuel (ending_of rd) (Some (mc_entry m)) [] (stand rd)) as ([(p & raw)|e|p|] & s1) eqn:E.
  2:{ rewrite (pbind_err _ _ _ _ _ E) in H. discriminate. }
  2:{ rewrite (pbind_panic _ _ _ _ _ E) in H. discriminate. }
  2:{ rewrite (pbind_fuel _ _ _ _ E) in H. discriminate. }
  rewrite (pbind_ok _ _ _ _ _ E) in *. destruct p as [|e]; [|discriminate].
  destruct (peof (ending_of rd) s1) as ([b|e|p|] & s2) eqn:Ee.
  2:{ rewrite (pbind_err _ _ _ _ _ Ee) in H. discriminate. }
  2:{ rewrite (pbind_panic _ _ _ _ _ Ee) in H. discriminate. }
  2:{ rewrite (pbind_fuel _ _ _ _ Ee) in H. discriminate. }
  rewrite (pbind_ok _ _ _ _ _ Ee) in *. unfold peof, pread in Ee. destruct (p_rest s1) as [|c rr] eqn:Er.
  - destruct (ending_of rd); [discriminate|]. injection Ee as <- <-. split; [reflexivity|].
    destruct (debug && negb (removed_labels_agree (List.tl raw)))%bool; cbn in *; [discriminate|exact Er].
  - injection Ee as <- <-. unfold perr_expected, pbind at 1, ploc in H. unfold pbind at 1 in H.
    destruct (pstream_prefix (ending_of rd) s1) as ([]&?); discriminate.
Qed.
Lemma parser_faithful : forall rs cfg g id m, parser_for rs cfg g id m -> faithful cfg rs g.
Proof. intros rs cfg g id m ((sy & H1 & H2) & H3 & _). eapply compile_faithful; eauto. Qed.
Lemma parser_rule : forall rs cfg g id m, parser_for rs cfg g id m -> exists r, names rs id r /\ parser_of g r m.
Proof.
  intros rs cfg g id m H. pose proof (machine_new_cases cfg rs g id (parser_faithful _ _ _ _ _ H) (proj1 (proj2 H))) as K.
  rewrite (proj2 (proj2 H)) in K. exact K.
Qed.
Lemma parser_unique : forall rs cfg g id m, parser_for rs cfg g id m -> no_repeat rs.
Proof. intros rs cfg g id m ((sy & H1 & _) & _). apply (accepted_iff rs). eauto. Qed.

Section Api.
Variable rs : list rule.
Variable cfg : config.
Lemma parse_sound_api : forall g id m debug fuel rd, parser_for rs cfg g id m -> reader rd -> ending_of rd = None ->
  match fst (parser_parse debug g fuel m rd) with
  | Ok evs => exists raw, means rs cfg id (stand rd) (Match (stand (snd (parser_parse debug g fuel m rd))) raw) /\ evs = remove_empty_pairs raw
  | Err e => (exists s' raw, means rs cfg id (stand rd) (No e s' raw)) \/
      (exists s' raw, means rs cfg id (stand rd) (Match s' raw) /\ p_rest s' <> [] /\ e = wanted s' (of_string "EOF")) \/
      means rs cfg id (stand rd) (Halt (Failed e))
  | Panic p => means rs cfg id (stand rd) (Halt Crashed) \/
      (debug = true /\ exists s' raw, means rs cfg id (stand rd) (Match s' raw) /\ removed_labels_agree (List.tl raw) = false /\ p_rest s' = [])
  | OutOfFuel => True
  end.
Proof.
  intros g id m debug fuel rd Hp Hr He. destruct (parser_rule _ _ _ _ _ Hp) as (r & Hn & Hm).
  destruct (parse_reader debug g fuel m rd Hr) as (A & B & _). rewrite A, B, He. pose proof (pparse_sound rs cfg g (parser_faithful _ _ _ _ _ Hp) debug fuel m r (stand rd) Hm) as K.
  destruct (fst (pmachine_parse g debug fuel None (mc_entry m) (stand rd))).
  - destruct K as (s' & raw & K1 & K2 & K3 & ->). exists raw. split; [exists r; auto|exact K3].
  - destruct K as [(s' & raw & K1)|[(s' & raw & K1 & K2)|K]]; [left|right; left|right; right].
    + exists s', raw. exists r; auto.
    + exists s', raw. split; [exists r; auto|exact K2].
    + exists r; auto.
  - destruct K as [K|(K1 & _ & s' & raw & K2 & K3)]; [left; exists r; auto|]. right. split; [exact K1|]. exists s', raw. split; [exists r; auto|exact K3].
  - exact I.
Qed.
Lemma parse_complete_api : forall g id m debug rd o, parser_for rs cfg g id m -> reader rd -> ending_of rd = None ->
  means rs cfg id (stand rd) o ->
  exists f0, forall fuel, f0 <= fuel ->
  match o with
  | Match s' raw => match p_rest s' with
      | [] => fst (parser_parse debug g fuel m rd) =
          if (debug && negb (removed_labels_agree (List.tl raw)))%bool then Panic PDebugAssert else Ok (remove_empty_pairs raw)
      | _ => fst (parser_parse debug g fuel m rd) = Err (wanted s' (of_string "EOF"))
      end
  | No e s' raw => fst (parser_parse debug g fuel m rd) = Err e
  | Halt (Failed e) => fst (parser_parse debug g fuel m rd) = Err e
  | Halt Crashed => exists p, fst (parser_parse debug g fuel m rd) = Panic p
  end.
Proof.
  intros g id m debug rd o Hp Hr He (r2 & Hn2 & Ho). destruct (parser_rule _ _ _ _ _ Hp) as (r & Hn & Hm).
  rewrite (names_unique rs _ _ _ (parser_unique _ _ _ _ _ Hp) Hn2 Hn) in Ho.
  destruct (pparse_complete rs cfg g (parser_faithful _ _ _ _ _ Hp) debug m r (stand rd) o Hm Ho) as (f0 & Hf). exists f0. intros fuel Hle.
  specialize (Hf fuel Hle). destruct (parse_reader debug g fuel m rd Hr) as (A & _). rewrite A, He.
  destruct o as [s' raw|l s' raw|[e|]]; auto.
  - destruct (p_rest s').
    + rewrite Hf. reflexivity.
    + rewrite Hf. reflexivity.
  - rewrite Hf. reflexivity.
Qed.
End Api.

(** Rules that were read from a text have no dollar sign in a name. *)
Lemma same_name_sym' : forall a b, same_name a b -> same_name b a.
Proof. intros a b. rewrite !same_name_keyed. auto. Qed.

(** Scanners on any reader. *)
Lemma scan_reader : forall debug fuel sc def rd, reader rd -> ending_of rd = None ->
  (exists p mn mx, sc = ScChars p mn mx) \/ ub_stack (mr_ub rd) <> [] ->
  exists rd', special_scan debug fuel sc def rd = (fst (pspecial_scan None fuel sc def (stand rd)), rd') /\
    stand rd' = snd (pspecial_scan None fuel sc def (stand rd)).
Proof.
  intros debug fuel sc def rd Hr He Hm. destruct (reader_rep rd Hr) as (T & l0 & c & R). rewrite He in R.
  destruct (stand_rep _ _ _ _ _ R) as (Hs & _). rewrite Hs.
  assert (K : exists ctx, simc T None l0 ctx ctx (special_scan debug fuel sc def) (pspecial_scan None fuel sc def) /\ among ctx (c_marks c)).
  { destruct Hm as [(p & mn & mx & ->)|Hm].
    - exists []. split; [apply simc_chars_scan|]. constructor.
    - exists (c_marks c). split; [apply simc_special_scan|apply among_refl]. intros E. apply Hm. destruct R as (b & R). rewrite (rp_stack _ _ _ _ _ _ R), E. reflexivity. }
  destruct K as (ctx & K & Ha). destruct (K rd c R Ha) as (rd' & c' & K1 & K2 & K3 & _). exists rd'. split; [exact K1|].
  destruct (stand_rep _ _ _ _ _ K2) as (-> & _). symmetry. exact K3.
Qed.
Lemma lexed_no_dollar : forall name s rs, parse_str name s = Ok rs -> no_dollar rs.
Proof.
  intros name s rs H r w Hin Hs. apply parse_wf in H. rewrite Forall_forall in H. destruct (H r Hin) as ((ws & Hne & Hw & Hid) & _).
  apply same_name_keyed in Hs. change (keyed (36%N :: w)) with (36%N :: keyed w) in Hs.
  destruct ws as [|w1 ws]; [contradiction|]. destruct (Forall_inv Hw) as (c & rr & -> & Hl & _).
  assert (Hc : exists k, r_id r = c :: k) by (rewrite Hid; destruct ws; eexists; reflexivity).
  destruct Hc as (k & Hc). rewrite Hc in Hs. unfold keyed in Hs. cbn [filter] in Hs.
  assert (Hg : is_gap c = false). { destruct (is_gap c) eqn:E; [|reflexivity]. exfalso. apply is_gap_spec in E. unfold letter, gap_char in *. lia. }
  rewrite Hg in Hs. injection Hs as -> _. unfold letter in Hl. lia.
Qed.
Lemma chars_unmatched : forall debug fuel pred mn mx def rd, reader rd -> ending_of rd = None ->
  forall rd', chars_scan debug fuel pred mn mx def rd = (Ok RUnmatch, rd') -> stand rd' = stand rd.
Proof.
  intros debug fuel pred mn mx def rd Hr He rd' H. destruct (scan_reader debug fuel (ScChars pred mn mx) def rd Hr He) as (rd2 & K1 & K2); [left; eauto|].
  cbn [special_scan] in K1. rewrite H in K1. injection K1 as K1 ->. rewrite K2. clear K2 H. cbn [pspecial_scan] in *. unfold pchars_scan in *.
  rewrite (pbind_ok pget _ (stand rd) _ _ eq_refl) in *. rewrite (pbind_ok ploc _ (stand rd) _ _ eq_refl) in *.
  destruct (pchars_loop None fuel pred mx 0%N (stand rd)) as ([w|e|p|] & s1) eqn:E.
  2:{ rewrite (pbind_err _ _ _ _ _ E) in K1. discriminate. }
  2:{ rewrite (pbind_panic _ _ _ _ _ E) in K1. discriminate. }
  2:{ rewrite (pbind_fuel _ _ _ _ E) in K1. discriminate. }
  rewrite (pbind_ok _ _ _ _ _ E) in *. destruct (match mn with Some m => _ | None => false end); [reflexivity|discriminate].
Qed.
Lemma regex_unmatched : forall debug (re : str) find def rd, reader rd -> ending_of rd = None -> ub_stack (mr_ub rd) <> [] ->
  forall rd', regex_scan debug find def rd = (Ok RUnmatch, rd') -> stand rd' = stand rd.
Proof.
  intros debug re find def rd Hr He Hm rd' H. destruct (scan_reader debug 0 (ScRegex re find) def rd Hr He) as (rd2 & K1 & K2); [right; exact Hm|].
  cbn [special_scan] in K1. rewrite H in K1. injection K1 as K1 ->. rewrite K2. clear K2 H. cbn [pspecial_scan] in *. unfold pregex_scan in *.
  rewrite (pbind_ok ploc _ (stand rd) _ _ eq_refl) in *.
  destruct (ppeek None (S regex_max) (stand rd)) as ([w|e|p|] & s1) eqn:E.
  2:{ rewrite (pbind_err _ _ _ _ _ E) in K1. discriminate. }
  2:{ rewrite (pbind_panic _ _ _ _ _ E) in K1. discriminate. }
  2:{ rewrite (pbind_fuel _ _ _ _ E) in K1. discriminate. }
  rewrite (pbind_ok _ _ _ _ _ E) in *. apply ppeek_ok in E as (-> & _).
  destruct (find w) as [([|k] & len)|]; try reflexivity. destruct (Nat.ltb regex_max (length (firstn len w))); discriminate.
Qed.

(** The scanners, in terms of the specification. *)
Lemma chars_scanner : forall debug fuel pred mn mx def rd, reader rd -> ending_of rd = None -> length (unread rd) < fuel ->
  exists w s', longest_run pred mx (stand rd) w s' /\
    ((too_short mn w /\ exists rd', chars_scan debug fuel pred mn mx def rd = (Ok RUnmatch, rd') /\ stand rd' = stand rd) \/
     (~ too_short mn w /\ exists rd', chars_scan debug fuel pred mn mx def rd = (Ok (RMatch [EvToken def (p_at (stand rd)) w]), rd') /\ stand rd' = s')).
Proof.
  intros debug fuel pred mn mx def rd Hr He Hf. destruct (scan_reader debug fuel (ScChars pred mn mx) def rd Hr He) as (rd' & K1 & K2); [left; eauto|].
  destruct (scan_none fuel (ScChars pred mn mx) def (stand rd)) as [(_ & Z)|(x & Hx & Hs)]; [unfold stand in Z; cbn in Z; lia|].
  cbn [special_scan] in K1. destruct (pspecial_scan None fuel (ScChars pred mn mx) def (stand rd)) as ([re|e|p|] & s1) eqn:E; cbn [scan_is fst snd] in *; try contradiction.
  - inversion Hx as [|? ? ? ? ? w s' Hlr Hts Y1 Y2 Y3|? ? ? ? ? w s' Hlr Hts| | | |]; subst; (exists w, s'; split; [assumption|]).
    + right. split; [assumption|]. destruct re; cbn in *; try discriminate. match goal with K : SMatch _ _ = SMatch _ _ |- _ => injection K as -> <- end. eauto.
    + left. split; [assumption|]. destruct re; cbn in *; try discriminate. exists rd'. split; [exact K1|].
      eapply chars_unmatched; eauto.
  - subst x. inversion Hx.
Qed.
Lemma regex_scanner : forall debug re find def rd, reader rd -> ending_of rd = None -> ub_stack (mr_ub rd) <> [] ->
  exists rd', 
    match find (window (stand rd)) with
    | Some (0, len) =>
        let w := firstn len (window (stand rd)) in
        if Nat.leb (length w) 256 then
          special_scan debug 0 (ScRegex re find) def rd = (Ok (RMatch [EvToken def (p_at (stand rd)) w]), rd') /\ goes (stand rd) w (stand rd')
        else special_scan debug 0 (ScRegex re find) def rd = (Err (Error_ (p_at (stand rd)) MRegexTooLong), rd')
    | _ => special_scan debug 0 (ScRegex re find) def rd = (Ok RUnmatch, rd') /\ stand rd' = stand rd
    end.
Proof.
  intros debug re find def rd Hr He Hm. destruct (scan_reader debug 0 (ScRegex re find) def rd Hr He) as (rd' & K1 & K2); [right; exact Hm|].
  exists rd'. destruct (scan_none 0 (ScRegex re find) def (stand rd)) as [(Z & _)|(x & Hx & Hs)].
  { exfalso. cbn [pspecial_scan] in Z. unfold pregex_scan in Z. rewrite (pbind_ok ploc _ (stand rd) _ _ eq_refl) in Z.
    rewrite (pbind_ok _ _ _ _ _ (ppeek_none _ (stand rd))) in Z.
    destruct (find _) as [([|k] & len)|]; try discriminate. destruct (Nat.ltb _ _); discriminate. }
  destruct (pspecial_scan None 0 (ScRegex re find) def (stand rd)) as ([y|e|p|] & s1) eqn:E; cbn [scan_is fst snd] in *; try contradiction.
  - inversion Hx as [| | |? ? ? ? len s' Hfd Hgo Hle Y1 Y2 Y3|? ? ? ? len Hfd Hle|? ? ? ? Hno|]; subst.
    + rewrite Hfd. cbv zeta. rewrite (proj2 (Nat.leb_le _ _) Hle). destruct y; cbn in *; try discriminate. match goal with K : SMatch _ _ = SMatch _ _ |- _ => injection K as -> <- end. auto.
    + destruct y; discriminate.
    + destruct y; try discriminate.
      assert (Hst : stand rd' = stand rd) by exact (regex_unmatched debug re find def rd Hr He Hm rd' K1).
      destruct (find (window (stand rd))) as [([|k] & len)|] eqn:Ef; auto. exfalso. eapply Hno. reflexivity.
  - subst x. inversion Hx as [| | | |? ? ? ? len Hfd Hle| |]; subst. rewrite Hfd. cbv zeta. rewrite (proj2 (Nat.leb_gt _ _) Hle). exact K1.
Qed.
