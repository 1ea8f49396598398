(** What the errors of a parse say: proofs. *)
From Coq Require Import String List NArith Arith Bool Lia Relations.
From Verif Require Import Base Ident Tokenizer Ast Lex Syntax Io Graph Machine SpecText SpecSyntax TextFacts SyntaxFacts SpecIo SpecParse SpecMachine SpecError Pure PureFacts ParseFacts CodeFacts RunFacts RunComplete EvFacts MachineFacts.
Import ListNotations.
Open Scope nat_scope.

Section Errors.
Variable rs : list rule.
Variable cfg : config.

Fixpoint within (n : node) : Prop :=
  match n with
  | NTimes _ _ _ b => within b /\ occurs rs b
  | NAlts ds => Forall (fun d => occurs rs (NSeq d)) ds
  | NSeq ts => Forall (fun t => occurs rs (NTerm t)) ts
  | NRef _ _ | NFwd _ => True
  | n => occurs rs n
  end.
Lemma occurs_part : forall m n, part m n -> occurs rs n -> occurs rs m.
Proof. intros m n H (r & Hr & K). exists r. split; [exact Hr|]. eapply rt_trans; [apply rt_step; exact H|exact K]. Qed.
Lemma occurs_rule : forall r, In r rs -> occurs rs (NDefs (r_defs r)).
Proof. intros r H. exists r. split; [exact H|apply rt_refl]. Qed.
Lemma occurs_defs : forall ds, occurs rs (NDefs ds) -> Forall (fun d => occurs rs (NSeq d)) ds.
Proof. intros ds H. apply Forall_forall. intros d Hd. eapply occurs_part; [apply pt_def; exact Hd|exact H]. Qed.
Lemma occurs_seq : forall ts, occurs rs (NSeq ts) -> Forall (fun t => occurs rs (NTerm t)) ts.
Proof. intros ts H. apply Forall_forall. intros t Ht. eapply occurs_part; [apply pt_term; exact Ht|exact H]. Qed.
Lemma group_occurs : forall t d, bare_group t = Some d -> occurs rs (NTerm t) -> occurs rs (NDefs d).
Proof.
  intros t d H K. destruct t as [[k p] [e|]]; [destruct p; discriminate|]. destruct p; cbn in H; try discriminate. destruct (N.eqb_spec k 1); [|discriminate]. injection H as ->.
  eapply occurs_part; [apply pt_grouped|]. eapply occurs_part; [apply pt_primary|]. eapply occurs_part; [apply pt_factor|exact K].
Qed.

Lemma place_here : forall s, place s (p_at s).
Proof. intros s. exists [], s. split; [apply goes_nil|reflexivity]. Qed.
Lemma place_step : forall s s1 l, moved s s1 -> place s1 l -> place s l.
Proof. intros s s1 l (w & H) (w2 & s2 & H2 & E). exists (w ++ w2), s2. split; [eapply goes_app; eauto|exact E]. Qed.
Lemma place_cut : forall s w s' l, goes s w s' -> place (Pst w (p_at s)) l -> place s l.
Proof.
  intros s w s' l H (w2 & s2 & H2 & E). apply goes_push in H as (A & B). apply goes_push in H2 as (A2 & B2). cbn in *.
  exists w2, (Pst (p_rest s2 ++ p_rest s') (p_at s2)). split; [|exact E]. apply goes_push. cbn. split; [|exact B2]. rewrite A, A2, <- app_assoc. reflexivity.
Qed.
Lemma stops_step : forall s s1 e, (forall l, place s1 l -> place s l) -> stops rs cfg s1 e -> stops rs cfg s e.
Proof. intros s s1 e H K. destruct K; [eapply so_livelock|eapply so_forward|eapply so_scanner]; eauto. Qed.
Lemma misses_step : forall s s1 e, moved s s1 -> misses rs cfg s1 e -> misses rs cfg s e.
Proof. intros s s1 e (w & H) (w2 & s2 & m & name & H2 & K). exists (w ++ w2), s2, m, name. split; [eapply goes_app; eauto|exact K]. Qed.
Lemma misses_here : forall s m name s' es, occurs rs m -> called cfg m name -> ev rs cfg m s (No (wanted s name) s' es) -> misses rs cfg s (wanted s name).
Proof. intros s m name s' es H1 H2 H3. exists [], s, m, name. split; [apply goes_nil|]. split; [exact H1|]. split; [exact H2|]. split; [reflexivity|]. exists s', es. exact H3. Qed.

Definition told (s : pst) (o : outcome) : Prop :=
  match o with No e _ _ => misses rs cfg s e | Halt (Failed e) => stops rs cfg s e | _ => True end.
Lemma told_step : forall s s1 o, moved s s1 -> told s1 o -> told s o.
Proof.
  intros s s1 [s' e|x s' e|[e|]] H K; cbn in *; auto; [eapply misses_step; eauto|]. eapply stops_step; [|exact K]. intros l. eapply place_step. exact H.
Qed.
Lemma ev_told : forall n s o, ev rs cfg n s o -> within n -> told s o.
Proof.
  intros n s o H. induction H; intros W; cbn [told within] in *; auto.
  - eapply misses_here; [exact W|constructor|]. apply ev_terminal_no. exact H.
  - eapply misses_here; [exact W|constructor|]. apply ev_special_no. exact H.
  - eapply so_scanner; [exact W|apply place_here|exact H].
  - apply scanned_moved in H. apply (told_step s s1 (Halt h) H). apply IHev. exact I.
  - eapply so_forward; [exact W|apply place_here|eassumption|assumption].
  - apply IHev. apply occurs_rule. exact (proj1 H).
  - apply IHev. apply occurs_rule. exact (proj1 H).
  - assert (K : occurs rs (NDefs d)) by (eapply occurs_part; [apply pt_optional|exact W]). apply IHev. auto.
  - assert (K : occurs rs (NDefs d)) by (eapply occurs_part; [apply pt_repeated|exact W]). apply IHev. auto.
  - apply IHev. eapply occurs_part; [apply pt_grouped|exact W].
  - apply IHev. exact (proj1 W).
  - eapply so_livelock; [exact (proj2 W)|apply place_here|exact H1|exact H2].
  - apply IHev. exact (proj1 W).
  - apply (told_step s s' (No x s2 [])); [exact (ev_moved _ _ _ _ _ H1)|]. apply IHev2. exact W.
  - apply (told_step s s' (Halt h)); [exact (ev_moved _ _ _ _ _ H1)|]. apply IHev2. exact W.
  - apply IHev. eapply occurs_part; [apply pt_primary|exact W].
  - assert (K : occurs rs (NPrim p)) by (eapply occurs_part; [apply pt_primary|exact W]). apply IHev. auto.
  - apply IHev. eapply occurs_part; [apply pt_factor|exact W].
  - apply IHev. eapply occurs_part; [apply pt_factor|exact W].
  - apply IHev. eapply occurs_part; [apply pt_factor|exact W].
  - eapply misses_here; [exact W|constructor|]. eapply ev_term_excepted; eauto.
  - assert (K : told (Pst w (p_at s)) (Halt h)) by (apply IHev2; eapply occurs_part; [apply pt_exception|exact W]).
    destruct h as [e1|]; [|exact I]. cbn in *. eapply stops_step; [|exact K]. intros l. eapply place_cut. exact H0.
  - apply IHev. eapply group_occurs; [exact H|exact (Forall_inv W)].
  - assert (K : told s' o) by (apply IHev2; exact (Forall_inv_tail W)).
    apply told_step with (s1 := s'); [exact (ev_moved _ _ _ _ _ H0)|]. destruct o; exact K.
  - apply IHev. exact (Forall_inv W).
  - apply IHev. exact (Forall_inv W).
  - apply IHev. apply occurs_seq. exact (Forall_inv (occurs_defs _ W)).
  - apply IHev. apply occurs_defs. exact W.
  - eapply misses_here; [exact W|constructor|]. eapply ev_defs_here; eauto.
  - apply IHev. apply occurs_defs. exact W.
  - apply IHev. apply occurs_seq. exact (Forall_inv W).
  - apply IHev. apply occurs_seq. exact (Forall_inv W).
  - unfold further. destruct (loc_ltb (e_loc x2) (e_loc x)); [apply IHev1; apply occurs_seq; exact (Forall_inv W)|apply IHev2; exact (Forall_inv_tail W)].
  - apply IHev2. exact (Forall_inv_tail W).
  - apply IHev. apply occurs_rule. exact (proj1 H).
Qed.
Lemma means_told : forall id s o, means rs cfg id s o -> told s o.
Proof. intros id s o (r & _ & H). eapply ev_told; [exact H|exact I]. Qed.

(** ** Parsing *)
Lemma parse_error : forall g id m debug fuel rd e, parser_for rs cfg g id m -> reader rd -> ending_of rd = None ->
  fst (parser_parse debug g fuel m rd) = Err e ->
  misses rs cfg (stand rd) e \/
  (exists w s', goes (stand rd) w s' /\ p_rest s' <> [] /\ e = wanted s' (of_string "EOF") /\
     exists raw, means rs cfg id (stand rd) (Match s' raw)) \/
  stops rs cfg (stand rd) e.
Proof.
  intros g id m debug fuel rd e Hp Hr He H. pose proof (parse_sound_api rs cfg g id m debug fuel rd Hp Hr He) as K. rewrite H in K.
  destruct K as [(s' & raw & K)|[(s' & raw & K1 & K2 & K3)|K]].
  - left. exact (means_told _ _ _ K).
  - right. left. pose proof K1 as (r & _ & Kev). destruct (ev_moved _ _ _ _ _ Kev) as (w & Hw). exists w, s'. eauto 10.
  - right. right. exact (means_told _ _ _ K).
Qed.
(** The error of a rule that is a choice. *)
Lemma parse_choice : forall g id m debug rd r, parser_for rs cfg g id m -> reader rd -> ending_of rd = None ->
  names rs id r -> r_defs r <> [] -> Forall (fun d => fails rs cfg (NSeq d) (stand rd)) (r_defs r) ->
  exists xs y, Forall2 (fun d x => fails_with rs cfg (NSeq d) (stand rd) x) (r_defs r) xs /\ last_furthest y xs /\
  exists f0, forall fuel, f0 <= fuel ->
    (e_loc y = p_at (stand rd) -> 2 <= length (r_defs r) ->
       fst (parser_parse debug g fuel m rd) = Err (wanted (stand rd) (defs_name cfg (r_defs r)))) /\
    (e_loc y <> p_at (stand rd) \/ length (r_defs r) = 1 -> fst (parser_parse debug g fuel m rd) = Err y).
Proof.
  intros g id m debug rd r Hp Hr He Hn Hne Hf. destruct (all_fail rs cfg _ _ Hne Hf) as (x & s' & e & Hev).
  destruct (defs_no _ _ _ _ _ _ _ Hev) as (xs & y & HF & HL & E). exists xs, y. split; [exact HF|]. split; [exact HL|].
  assert (K : means rs cfg id (stand rd) (No x s' [])).
  { exists r. split; [exact Hn|]. eapply ev_ref_no; [split; [exact (proj1 Hn)|apply same_name_keyed; reflexivity]|exact Hev]. }
  destruct (parse_complete_api rs cfg g id m debug rd _ Hp Hr He K) as (f0 & H). exists f0. intros fuel Hle. specialize (H fuel Hle). cbv iota in H. rewrite H, E.
  split.
  - intros El Hlen. rewrite El, loc_eqb_refl, (proj2 (Nat.leb_le _ _) Hlen). reflexivity.
  - intros [El|Hlen].
    + destruct (loc_eqb (e_loc y) (p_at (stand rd))) eqn:E2; [apply loc_eqb_eq in E2; contradiction|]. rewrite andb_false_r. reflexivity.
    + rewrite Hlen. reflexivity.
Qed.
End Errors.
