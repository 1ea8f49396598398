(** Properties C32, C34-C36, C43: accepted texts, events, panics.

    Notation as in PropParse.v; event lists and classes of rules and scanners are in
    SpecEvents.v. *)
From Coq Require Import String List NArith Arith Bool Lia.
From Verif Require Import Base Ident Tokenizer Ast Lex Syntax Io Graph Machine SpecText SpecSyntax SpecTree SpecIo TextFacts TreeFacts SyntaxFacts IoFacts SpecParse SpecMachine SpecEvents Pure ParseFacts CodeFacts EvFacts MachineFacts EventFacts LangFacts PanicFacts PropSyntax PropParse.
Import ListNotations.
Open Scope nat_scope.

(** The scanners that come with the library are nesting, honest, spelling and never forward. *)
Definition library_config (cfg : config) : Prop := forall l c, library_scanner (cfg l c).
Lemma library_trail : forall sc def s s' evs, library_scanner sc -> scanned sc def s (SMatch s' evs) -> trail s evs s' /\ nested evs.
Proof.
  intros sc def s s' evs Hl H. inversion H; subst; try contradiction; (split; [|repeat constructor]).
  - constructor.
  - match goal with X : longest_run _ _ _ _ _ |- _ => destruct X as (X & _) end. eapply tr_token; [eassumption|constructor].
  - eapply tr_token; [eassumption|constructor].
Qed.
Lemma trail_in_text : forall s evs s', trail s evs s' -> in_text s evs.
Proof.
  intros s evs s' H. induction H as [s|s d t s1 r s' Hg Ht IH|s d b r s' Ht IH|s d b r s' Ht IH]; intros d0 l0 t0 Hi.
  - contradiction.
  - destruct Hi as [[= <- <- <-]|Hi]; [exists [], s, s1; auto using goes_nil|]. eapply in_text_moved; [exists t; exact Hg|exact IH|exact Hi].
  - destruct Hi as [Hi|Hi]; [discriminate|eapply IH; exact Hi].
  - destruct Hi as [Hi|Hi]; [discriminate|eapply IH; exact Hi].
Qed.
Lemma library_scanners : forall cfg, library_config cfg ->
  nesting_scanners cfg /\ honest_scanners cfg /\ spelling_scanners cfg /\ no_forwarding cfg.
Proof.
  intros cfg Hl. split; [|split; [|split]].
  - intros l c s s' evs H. exact (proj2 (library_trail _ _ _ _ _ (Hl l c) H)).
  - intros l c s s' evs H. eapply trail_in_text. exact (proj1 (library_trail _ _ _ _ _ (Hl l c) H)).
  - intros l c s s' evs H. exact (proj1 (library_trail _ _ _ _ _ (Hl l c) H)).
  - intros l c s id s' H. specialize (Hl l c). inversion H; subst; rewrite <- H0 in Hl; contradiction.
Qed.

(** C32 is false: the term after a group that is a term by itself is never tried. *)
Lemma c_last : forall cfg rs t u l w, lang cfg rs (NDefs [[t; Term (Factor 1 (PTerminal l u)) None]]) w -> exists v, w = v ++ u.
Proof.
  intros cfg rs t u l w H. inversion H; subst. match goal with X : In _ _ |- _ => destruct X as [<-|[]] end.
  match goal with X : lang _ _ (NSeq _) _ |- _ => inversion X; subst end. match goal with X : lang _ _ (NSeq [_]) _ |- _ => inversion X; subst end.
  match goal with X : lang _ _ (NTerm (Term (Factor 1 _) _)) _ |- _ => inversion X; subst end.
  match goal with X : lang _ _ (NFactor (Factor 1 _)) _ |- _ => inversion X as [| | | | | | | | | |n p v1 v2 Hv1 Hv2 E1 E2| | | |]; subst end.
  assert (n = 0%N) by lia. subst n. inversion Hv2; subst; [|lia]. inversion Hv1; subst.
  match goal with X : lang _ _ (NSeq []) _ |- _ => inversion X; subst end. rewrite !app_nil_r. eauto.
Qed.
Theorem C32_accepted_in_language_refuted : exists ebnf id input evs, 
  parse_case default_config ebnf id true 100 (text_reader input) = Some (Ok evs) /\
  forall r, names (rules_of ebnf) id r -> ~ lang default_config (rules_of ebnf) (NDefs (r_defs r)) input.
Proof.
  exists (txt "S=('a'|'b'),'c';"), (txt "S"), (txt "a"), [bg 1 1 "S"; tk 4 1 "a"; en 1 2 "S"].
  split; [vm_compute; reflexivity|]. intros r (Hin & _) H. vm_compute in Hin. destruct Hin as [<-|[]]. cbn [r_defs] in H.
  apply c_last in H as (v & H). destruct v as [|c v]; [discriminate|]. injection H as _ H. destruct v; discriminate.
Qed.
Print Assumptions C32_accepted_in_language_refuted.
(** What holds: where such groups only come last, an accepted text is in the language. *)
Lemma in_language_pf : forall rs cfg g id m debug fuel rd evs, parser_for rs cfg g id m -> reader rd ->
  no_forwarding cfg -> Forall (fun r => groups_last (NDefs (r_defs r))) rs ->
  fst (parser_parse debug g fuel m rd) = Ok evs ->
  exists r, names rs id r /\ lang cfg rs (NDefs (r_defs r)) (unread rd).
Proof.
  intros rs cfg g id m debug fuel rd evs Hp Hr Hf Hg H. destruct (parse_all_read _ _ _ _ _ _ Hr H) as (He & Hu).
  pose proof (parse_sound_api rs cfg g id m debug fuel rd Hp Hr He) as K. rewrite H in K. destruct K as (raw & (r & Hn & Hev) & _).
  destruct (ev_speaks rs cfg Hf Hg _ _ _ Hev I) as (w & Hw & Hl). cbn [words] in Hl.
  inversion Hl as [| | |l' id' r' w' Hn' Hl'| | | | | | | | | | |]; subst.
  assert (Hrr : r' = r).
  { destruct Hn as (Hin & _). apply (names_unique rs (r_id r) _ _ (parser_unique _ _ _ _ _ Hp)); auto. split; [exact Hin|]. apply same_name_keyed. reflexivity. }
  subst r'. exists r. split; [exact Hn|]. destruct Hw as (Hw & _). change (unread rd) with (p_rest (stand rd)). rewrite Hw.
  change (p_rest (stand (snd (parser_parse debug g fuel m rd)))) with (unread (snd (parser_parse debug g fuel m rd))). rewrite Hu, app_nil_r. exact Hl'.
Qed.
Theorem C32_accepted_in_language : forall rs cfg g id m debug fuel rd evs, parser_for rs cfg g id m ->
  reader rd -> no_forwarding cfg -> Forall (fun r => groups_last (NDefs (r_defs r))) rs ->
  fst (parser_parse debug g fuel m rd) = Ok evs ->
  exists r, names rs id r /\ lang cfg rs (NDefs (r_defs r)) (unread rd).
Proof. exact in_language_pf. Qed.
Print Assumptions C32_accepted_in_language.

(** C34. *)
Theorem C34_library_scanners : forall cfg, library_config cfg ->
  nesting_scanners cfg /\ honest_scanners cfg /\ spelling_scanners cfg /\ no_forwarding cfg.
Proof. exact library_scanners. Qed.
Print Assumptions C34_library_scanners.
Lemma ref_match : forall rs cfg l id s s' raw, ev rs cfg (NRef l id) s (Match s' raw) ->
  exists r e, names rs id r /\ ev rs cfg (NDefs (r_defs r)) s (Match s' e) /\
    raw = (EvBegin l (p_at s) (r_id r) :: e) ++ [EvEnd l (p_at s') (r_id r)].
Proof. intros rs cfg l id s s' raw H. inversion H; subst. eauto. Qed.
Lemma nested_pf : forall rs cfg g id m debug fuel rd evs, parser_for rs cfg g id m -> reader rd -> nesting_scanners cfg ->
  fst (parser_parse debug g fuel m rd) = Ok evs ->
  exists r inner, names rs id r /\ nested inner /\
    evs = EvBegin (r_loc r) (p_at (stand rd)) (r_id r) :: inner ++
          [EvEnd (r_loc r) (p_at (stand (snd (parser_parse debug g fuel m rd)))) (r_id r)].
Proof.
  intros rs cfg g id m debug fuel rd evs Hp Hr Hn H. destruct (parse_all_read _ _ _ _ _ _ Hr H) as (He & _).
  pose proof (parse_sound_api rs cfg g id m debug fuel rd Hp Hr He) as K. rewrite H in K. destruct K as (raw & (r & Hnm & Hev) & ->).
  apply ref_match in Hev as (r' & ev' & Hn' & Hev' & ->).
  assert (Hrr : r' = r).
  { destruct Hnm as (Hin & _). apply (names_unique rs (r_id r) _ _ (parser_unique _ _ _ _ _ Hp)); auto. split; [exact Hin|]. apply same_name_keyed. reflexivity. }
  subst r'. pose proof (ev_nested rs cfg Hn _ _ _ Hev') as K. cbn in K. exists r, (remove_pairs ev'). split; [exact Hnm|].
  split; [apply remove_nested; exact K|]. cbn [app remove_empty_pairs]. f_equal. rewrite remove_app by exact K. reflexivity.
Qed.
Theorem C34_events_nested : forall rs cfg g id m debug fuel rd evs, parser_for rs cfg g id m ->
  reader rd -> nesting_scanners cfg -> fst (parser_parse debug g fuel m rd) = Ok evs ->
  exists r inner, names rs id r /\ nested inner /\
    evs = EvBegin (r_loc r) (p_at (stand rd)) (r_id r) :: inner ++
          [EvEnd (r_loc r) (p_at (stand (snd (parser_parse debug g fuel m rd)))) (r_id r)].
Proof. exact nested_pf. Qed.
Print Assumptions C34_events_nested.
(** C35: each token is a piece of the text, at the location of its first character ... *)
Lemma tokens_in_text_pf : forall rs cfg g id m debug fuel rd evs, parser_for rs cfg g id m -> reader rd -> honest_scanners cfg ->
  fst (parser_parse debug g fuel m rd) = Ok evs -> in_text (stand rd) evs.
Proof.
  intros rs cfg g id m debug fuel rd evs Hp Hr Hn H. destruct (parse_all_read _ _ _ _ _ _ Hr H) as (He & _).
  pose proof (parse_sound_api rs cfg g id m debug fuel rd Hp Hr He) as K. rewrite H in K. destruct K as (raw & (r & Hnm & Hev) & ->).
  pose proof (ev_in_text rs cfg Hn _ _ _ Hev) as K. cbn in K. intros d l t Hi. apply (K d l t). destruct raw as [|e raw]; [exact Hi|].
  cbn in Hi. destruct Hi as [Hi|Hi]; [left; exact Hi|right; eapply remove_in; [apply le_n|exact Hi]].
Qed.
Theorem C35_tokens_in_text : forall rs cfg g id m debug fuel rd evs, parser_for rs cfg g id m ->
  reader rd -> honest_scanners cfg -> fst (parser_parse debug g fuel m rd) = Ok evs ->
  in_text (stand rd) evs.
Proof. exact tokens_in_text_pf. Qed.
Print Assumptions C35_tokens_in_text.
(** ... but together they need not spell the text: the tokens of an abandoned option stay. *)
Theorem C35_tokens_spell_refuted : exists ebnf id input evs,
  parse_case default_config ebnf id true 100 (text_reader input) = Some (Ok evs) /\ tokens evs <> input.
Proof.
  exists (txt "A=['a','b'],'a','c';"), (txt "A"), (txt "ac"),
    [bg 1 1 "A"; tk 4 1 "a"; tk 13 1 "a"; tk 17 2 "c"; en 1 3 "A"].
  split; [vm_compute; reflexivity|vm_compute; discriminate].
Qed.
Print Assumptions C35_tokens_spell_refuted.
(** ... unless the body of an option or repetition leaves no events when it fails. *)
Lemma spell_pf : forall rs cfg g id m debug fuel rd evs, parser_for rs cfg g id m -> reader rd ->
  spelling_scanners cfg -> no_forwarding cfg -> Forall (fun r => tidy (NDefs (r_defs r))) rs ->
  fst (parser_parse debug g fuel m rd) = Ok evs ->
  tokens evs = unread rd /\ trail (stand rd) evs (stand (snd (parser_parse debug g fuel m rd))).
Proof.
  intros rs cfg g id m debug fuel rd evs Hp Hr Hsp Hf Ht H. destruct (parse_all_read _ _ _ _ _ _ Hr H) as (He & Hu).
  pose proof (parse_sound_api rs cfg g id m debug fuel rd Hp Hr He) as K. rewrite H in K. destruct K as (raw & (r & Hnm & Hev) & ->).
  pose proof (ev_spelled rs cfg Hsp Hf Ht _ _ _ Hev (td_ref _ _)) as K. cbn [spelled] in K.
  split; [|apply trail_filter; exact K]. rewrite tokens_filter. apply trail_tokens in K. destruct K as (K & _).
  change (unread rd) with (p_rest (stand rd)). rewrite K. 
  change (p_rest (stand (snd (parser_parse debug g fuel m rd)))) with (unread (snd (parser_parse debug g fuel m rd))). rewrite Hu, app_nil_r. reflexivity.
Qed.
Theorem C35_tokens_spell : forall rs cfg g id m debug fuel rd evs, parser_for rs cfg g id m ->
  reader rd -> spelling_scanners cfg -> no_forwarding cfg ->
  Forall (fun r => tidy (NDefs (r_defs r))) rs ->
  fst (parser_parse debug g fuel m rd) = Ok evs ->
  tokens evs = unread rd /\ trail (stand rd) evs (stand (snd (parser_parse debug g fuel m rd))).
Proof. exact spell_pf. Qed.
Print Assumptions C35_tokens_spell.

(** C36: the filter drops exactly the pairs Begin, End that are adjacent, after the first event. *)
Theorem C36_filter : forall es, remove_empty_pairs es = without_pairs es.
Proof. exact filter_positions. Qed.
Print Assumptions C36_filter.
(** In one pass: what becomes empty by that stays. *)
Theorem C36_no_empty_pair_refuted : exists ebnf id input evs i d l b d2 l2,
  parse_case default_config ebnf id true 100 (text_reader input) = Some (Ok evs) /\ 1 <= i /\
  nth_error evs i = Some (EvBegin d l b) /\ nth_error evs (S i) = Some (EvEnd d2 l2 b).
Proof.
  exists (txt "E=;F=E;S='a',F;"), (txt "S"), (txt "a"),
    [bg 8 1 "S"; tk 10 1 "a"; bg 14 2 "F"; en 14 2 "F"; en 8 2 "S"], 2, (Loc [] 1 14), (Loc [] 1 2), (txt "F"), (Loc [] 1 14), (Loc [] 1 2).
  split; [vm_compute; reflexivity|]. split; [lia|]. split; vm_compute; reflexivity.
Qed.
Print Assumptions C36_no_empty_pair_refuted.
(** An empty pair in the result held, in the events of the match, nothing but empty pairs
    (and at least one). *)
Lemma empty_pair_pf : forall rs cfg g id m debug fuel rd evs i d l b d2 l2 b2, parser_for rs cfg g id m -> reader rd ->
  fst (parser_parse debug g fuel m rd) = Ok evs ->
  nth_error evs (S i) = Some (EvBegin d l b) -> nth_error evs (S (S i)) = Some (EvEnd d2 l2 b2) ->
  exists s' pre mid post, means rs cfg id (stand rd) (Match s' (pre ++ EvBegin d l b :: mid ++ EvEnd d2 l2 b2 :: post)) /\
    mid <> [] /\ pairs mid.
Proof.
  intros rs cfg g id m debug fuel rd evs i d l b d2 l2 b2 Hp Hr H H1 H2. destruct (parse_all_read _ _ _ _ _ _ Hr H) as (He & _).
  pose proof (parse_sound_api rs cfg g id m debug fuel rd Hp Hr He) as K. rewrite H in K. destruct K as (raw & Hm & ->).
  destruct raw as [|e raw]; [discriminate|]. cbn [remove_empty_pairs nth_error] in H1, H2.
  destruct (hollow_source _ _ _ _ _ _ _ _ _ (le_n _) H1 H2) as (pre & mid & post & -> & Hne & Hpa).
  eexists _, (e :: pre), mid, post. split; [exact Hm|]. auto.
Qed.
Theorem C36_empty_pair_source : forall rs cfg g id m debug fuel rd evs i d l b d2 l2 b2,
  parser_for rs cfg g id m -> reader rd -> fst (parser_parse debug g fuel m rd) = Ok evs ->
  nth_error evs (S i) = Some (EvBegin d l b) -> nth_error evs (S (S i)) = Some (EvEnd d2 l2 b2) ->
  exists s' pre mid post,
    means rs cfg id (stand rd) (Match s' (pre ++ EvBegin d l b :: mid ++ EvEnd d2 l2 b2 :: post)) /\
    mid <> [] /\ pairs mid.
Proof. exact empty_pair_pf. Qed.
Print Assumptions C36_empty_pair_source.

(** C43 is false: references inside brackets are not checked (C20). *)
Theorem C43_no_panic_refuted : exists ebnf id input,
  (exists rs sy, parse_str [] ebnf = Ok rs /\ new_syntax rs = Ok sy) /\
  parse_case default_config ebnf id false 100 (text_reader input) = Some (Panic PUnwrap).
Proof.
  exists (txt "a=(b);"), (txt "a"), []. split; [|vm_compute; reflexivity].
  exists (rules_of (txt "a=(b);")), (Syntax_ [(txt "a", txt "a")] [(txt "a", 0)] (rules_of (txt "a=(b);"))).
  split; vm_compute; reflexivity.
Qed.
Print Assumptions C43_no_panic_refuted.
(** What holds: with every reference defined, at any depth, and no bracket empty, no parse
    panics; in debug builds too, whatever marks the reader has, even if the source fails. *)
Theorem C43_no_panic : forall rs cfg g id m debug fuel rd p, parser_for rs cfg g id m ->
  reader rd -> (forall r l id', In r rs -> refers_deep r l id' -> defined rs id') ->
  Forall (fun r => filled_defs (r_defs r)) rs -> nesting_scanners cfg ->
  fst (parser_parse debug g fuel m rd) <> Panic p.
Proof. exact parse_no_panic. Qed.
Print Assumptions C43_no_panic.
(** For rules read from a text, with the scanners of the library. *)
Lemma text_no_panic_pf : forall name t rs cfg g id m debug fuel rd p, parse_str name t = Ok rs -> parser_for rs cfg g id m ->
  reader rd -> (forall r l id', In r rs -> refers_deep r l id' -> defined rs id') -> library_config cfg ->
  fst (parser_parse debug g fuel m rd) <> Panic p.
Proof.
  intros name t rs cfg g id m debug fuel rd p Ht Hp Hr Hd Hl. apply (parse_no_panic rs cfg g id); auto.
  - apply parse_wf in Ht. eapply Forall_impl; [|exact Ht]. intros r (_ & K). apply wf_filled. exact K.
  - apply (library_scanners cfg Hl).
Qed.
Theorem C43_no_panic_text : forall name t rs cfg g id m debug fuel rd p, parse_str name t = Ok rs ->
  parser_for rs cfg g id m -> reader rd ->
  (forall r l id', In r rs -> refers_deep r l id' -> defined rs id') -> library_config cfg ->
  fst (parser_parse debug g fuel m rd) <> Panic p.
Proof. exact text_no_panic_pf. Qed.
Print Assumptions C43_no_panic_text.

(** A grammar and a text that meet all hypotheses above. *)
Definition small_text : str := txt "S=3*('x'|D),{D,[',']},? any ?-'c',E;D='d'|'ee';E=;".
Definition any_config : config := fun _ _ => ScChars (fun c => N.leb 97 c) (Some 1%N) (Some 2%N).
Example library_case : library_config any_config /\ library_config default_config.
Proof. split; intros l c; exact I. Qed.
Example small_groups_last : Forall (fun r => groups_last (NDefs (r_defs r))) (rules_of small_text).
Proof.
  vm_compute. repeat (apply Forall_cons || apply Forall_nil);
  repeat match goal with |- groups_last (NSeq [_]) => apply gl_last | |- groups_last (NSeq (_ :: _)) => apply gl_seq
    | |- Forall _ (_ :: _) => apply Forall_cons | |- Forall _ [] => apply Forall_nil | |- _ = _ => reflexivity | |- _ => constructor end.
Qed.
Example small_tidy : Forall (fun r => tidy (NDefs (r_defs r))) (rules_of small_text).
Proof.
  vm_compute. repeat (apply Forall_cons || apply Forall_nil);
  repeat match goal with
    | |- Forall _ (_ :: _) => apply Forall_cons | |- Forall _ [] => apply Forall_nil | |- tidy _ => constructor
    | |- clean (NDefs [_]) => apply cl_defs1 | |- clean (NSeq _) => apply cl_seq | |- clean (NTerm _) => apply cl_term
    | |- clean (NFactor _) => apply cl_factor1 | |- clean (NPrim (PMeta _ _)) => apply cl_meta | |- clean (NPrim (PTerminal _ _)) => apply cl_terminal
    | |- sure _ => constructor end.
Qed.
Example small_parse : parse_case any_config small_text (txt "S") true 100 (text_reader (txt "xdxd,eeab")) =
  Some (Ok [bg 1 1 "S"; tk 6 1 "x"; bg 10 2 "D"; tk 39 2 "d"; en 10 3 "D"; tk 6 3 "x";
            bg 14 4 "D"; tk 39 4 "d"; en 14 5 "D"; tk 17 5 ",";
            bg 14 6 "D"; tk 43 6 "ee"; en 14 8 "D"; tk 23 8 "ab"; en 1 10 "S"]).
Proof. vm_compute. reflexivity. Qed.
(** A check that every reference is defined. *)
Fixpoint prim_refs (p : primary) : list str :=
  match p with
  | PMeta _ id => [id]
  | POptional _ d | PRepeated _ d | PGrouped _ d =>
      flat_map (flat_map (fun t => prim_refs (f_prim (t_factor t)) ++
        match t_exc t with Some e => prim_refs (f_prim e) | None => [] end)) d
  | _ => []
  end.
Lemma inside_refs : forall q l id, inside (PMeta l id) q -> In id (prim_refs q).
Proof.
  assert (K : forall l d l0 id q, Forall (Forall (P_term (fun q => forall l id, inside (PMeta l id) q -> In id (prim_refs q)))) d ->
    q = POptional l d \/ q = PRepeated l d \/ q = PGrouped l d -> inside (PMeta l0 id) q -> In id (prim_refs q)).
  { intros l d l0 id q HF Hq H. inversion H as [p E|p q' d' l' s t Hq' Hs Ht H1]; subst.
    - destruct Hq as [Hq | [Hq | Hq]]; discriminate.
    - assert (d' = d) by (destruct Hq as [-> | [-> | ->]]; destruct Hq' as [Hq | [Hq | Hq]]; congruence). subst d'.
      rewrite Forall_forall in HF. specialize (HF s Hs). rewrite Forall_forall in HF. destruct (HF t Ht) as (F1 & F2).
      assert (G : In id (flat_map (flat_map (fun t => prim_refs (f_prim (t_factor t)) ++
        match t_exc t with Some e => prim_refs (f_prim e) | None => [] end)) d)).
      { apply in_flat_map. exists s. split; [exact Hs|]. apply in_flat_map. exists t. split; [exact Ht|]. apply in_or_app.
        destruct H1 as [H1|(e & He & H1)]; [left; eapply F1; exact H1|right]. rewrite He in *. eapply F2. exact H1. }
      destruct Hq as [-> | [-> | ->]]; exact G. }
  induction q as [l d IH|l d IH|l d IH|l id|l s|l s|l] using primary_nested; intros l0 id0 H; try (eapply K; eauto; fail).
  all: inversion H; subst; [left; reflexivity|intuition congruence] || (inversion H; subst; intuition congruence).
Qed.
Definition all_defined (rs : list rule) : bool :=
  forallb (fun r => forallb (fun id => existsb (fun r' => str_eqb (keyed id) (keyed (r_id r'))) rs) (prim_refs (PGrouped (r_loc r) (r_defs r)))) rs.
Lemma all_defined_ok : forall rs, all_defined rs = true -> forall r l id, In r rs -> refers_deep r l id -> defined rs id.
Proof.
  intros rs H r l id Hr Hd. unfold all_defined in H. rewrite forallb_forall in H. specialize (H r Hr). rewrite forallb_forall in H.
  specialize (H id (inside_refs _ _ _ Hd)). apply existsb_exists in H as (r' & Hr' & E). exists r'. split; [exact Hr'|].
  apply same_name_keyed. apply str_eqb_eq. exact E.
Qed.
Example small_defined : forall r l id, In r (rules_of small_text) -> refers_deep r l id -> defined (rules_of small_text) id.
Proof. apply all_defined_ok. vm_compute. reflexivity. Qed.
