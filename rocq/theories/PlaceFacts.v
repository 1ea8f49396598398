(** Every location in a tree comes from a token. *)
From Coq Require Import String List NArith Arith Bool Lia.
From Verif Require Import Base Ident Tokenizer Ast Lex SpecText TextFacts SpecTok TokFacts TokRun
  SpecLex LexRun SpecGram GramFacts GramText SpecSyntax SpecLoc LocFacts.
Import ListNotations.
Open Scope nat_scope.

Section Places.
Variable P : location -> Prop.
Hypothesis Punknown : P (loc_new (of_string "<unknown>")).
Notation from := (Forall (fun t : token => P (tok_loc t))).
Definition good_term (t : term) : Prop := forall p, in_term p t -> P (p_loc p).
Definition good_single (s : single_definition) : Prop := Forall good_term s.
Definition good_defs (d : definition_list) : Prop := Forall good_single d.
Definition good_factor (f : factor) : Prop := forall p, inside p (f_prim f) -> P (p_loc p).

Lemma from_skip : forall ts, from ts -> from (skip_trivia ts).
Proof. intros ts H. destruct (skip_split ts) as (tr & E & _). rewrite E in H. apply Forall_app in H. tauto. Qed.
Lemma from_close : forall o c ts d a b, find_close o c d ts = Some (a, b) -> from ts -> from a /\ from b.
Proof.
  intros o c ts d a b H HF. apply find_close_split in H. destruct H as (t & E & _). rewrite E in HF.
  apply Forall_app in HF as (H1 & H2). inversion H2; subst. auto.
Qed.
Lemma from_rmi_loop : forall ts cur l id l' n, rmi_loop cur l ts = (id, l', n) -> from ts ->
  (forall x, l = Some x -> P x) -> from n /\ (forall x, l' = Some x -> P x).
Proof.
  induction ts as [|t ts IH]; intros cur l id l' n H HF HP.
  - cbn in H. injection H as <- <- <-. split; [constructor|exact HP].
  - inversion HF as [|? ? H1 H2]; subst. destruct t; cbn [rmi_loop] in H;
      try (injection H as <- <- <-; split; assumption).
    + eapply IH; [exact H|exact H2|]. destruct l; intros x E; [auto|]. injection E as <-. exact H1.
    + eapply IH; [exact H|exact H2|exact HP].
Qed.
Lemma from_rmi : forall ts id l' n, read_meta_identifier ts = (id, l', n) -> from ts ->
  from n /\ (forall x, l' = Some x -> P x).
Proof.
  intros ts id l' n H HF. unfold read_meta_identifier in H.
  destruct (rmi_loop [] None (skip_trivia ts)) as ((id' & l'') & n') eqn:E. injection H as <- <- <-.
  eapply from_rmi_loop; [exact E|apply from_skip; exact HF|discriminate].
Qed.
Lemma inside_leaf : forall p q, inside p q -> (forall d l, q <> POptional l d /\ q <> PRepeated l d /\ q <> PGrouped l d) -> p = q.
Proof.
  intros p q H Hn. apply inside_inv in H as [->|(d & l & s & t & Hq & _)]; [reflexivity|].
  destruct (Hn d l) as (A & B & C). destruct Hq as [Hq|[Hq|Hq]]; congruence.
Qed.
Lemma inside_defs : forall p q l d, q = POptional l d \/ q = PRepeated l d \/ q = PGrouped l d ->
  P l -> good_defs d -> inside p q -> P (p_loc p).
Proof.
  intros p q l d Hq Hl Hd H. apply inside_inv in H as [->|(d' & l' & s & t & Hq' & Hs & Ht & Hi)].
  - destruct Hq as [->|[->| ->]]; exact Hl.
  - assert (d' = d) as -> by (destruct Hq as [->|[->| ->]], Hq' as [Hq'|[Hq'|Hq']]; congruence).
    unfold good_defs in Hd. rewrite Forall_forall in Hd. specialize (Hd s Hs). unfold good_single in Hd.
    rewrite Forall_forall in Hd. exact (Hd t Ht p Hi).
Qed.

Lemma read_places : forall f,
  (forall all ts d, read_definition_list f all ts = Ok d -> from all -> from ts -> good_defs d) /\
  (forall all ts d n, read_single_definition f all ts = Ok (d, n) -> from all -> from ts -> good_single d /\ from n) /\
  (forall all ts d n, read_syntactic_term f all ts = Ok (d, n) -> from all -> from ts -> good_term d /\ from n) /\
  (forall all ts d n, read_syntactic_factor f all ts = Ok (d, n) -> from all -> from ts -> good_factor d /\ from n) /\
  (forall all ts d n, read_syntactic_primary f all ts = Ok (d, n) -> from all -> from ts ->
     (forall p, inside p d -> P (p_loc p)) /\ from n).
Proof.
  induction f as [|f (IHdl & IHsd & IHtm & IHfa & IHpr)]; [repeat split; intros; discriminate|].
  split; [|split; [|split; [|split]]].
  - intros all ts d H Ha Ht. cbn [read_definition_list] in H. apply bind_ok in H as ((sd & n) & E & H).
    destruct (IHsd _ _ _ _ E Ha Ht) as (G & Hn). apply from_skip in Hn.
    destruct (skip_trivia n) as [|t r]; [injection H as <-; constructor; [exact G|constructor]|].
    inversion Hn as [|? ? H1 H2]; subst.
    destruct (is_terminator t); [injection H as <-; constructor; [exact G|constructor]|].
    apply bind_ok in H as (ds & E2 & H). injection H as <-. constructor; [exact G|].
    eapply IHdl; [exact E2|exact Ha|]. destruct t; assumption.
  - intros all ts d n H Ha Ht. cbn [read_single_definition] in H. apply bind_ok in H as ((tm & m) & E & H).
    destruct (IHtm _ _ _ _ E Ha Ht) as (G & Hn). apply from_skip in Hn.
    destruct (skip_trivia m) as [|t r]; [injection H as <- <-; split; [constructor; [exact G|constructor]|constructor]|].
    inversion Hn as [|? ? H1 H2]; subst.
    destruct t; cbn [is_terminator] in H; try discriminate; try (injection H as <- <-; split; [constructor; [exact G|constructor]|exact Hn]).
    apply bind_ok in H as ((tms & n2) & E2 & H). injection H as <- <-. destruct (IHsd _ _ _ _ E2 Ha H2) as (G2 & Hn2).
    split; [constructor; assumption|exact Hn2].
  - intros all ts d n H Ha Ht. cbn [read_syntactic_term] in H. apply bind_ok in H as ((fa & m) & E & H).
    destruct (IHfa _ _ _ _ E Ha Ht) as (G & Hn). apply from_skip in Hn.
    assert (Plain : forall n', from n' -> good_term (Term fa None) /\ from n').
    { intros n' Hn'. split; [|exact Hn']. intros p [Hp|(e & Ee & _)]; [apply G; exact Hp|discriminate]. }
    destruct (skip_trivia m) as [|t r]; [injection H as <- <-; apply Plain; constructor|].
    inversion Hn as [|? ? H1 H2]; subst.
    destruct t; try (injection H as <- <-; apply Plain; exact Hn).
    apply bind_ok in H as ((ex & n2) & E2 & H). injection H as <- <-. destruct (IHfa _ _ _ _ E2 Ha H2) as (G2 & Hn2).
    split; [|exact Hn2]. intros p [Hp|(e & Ee & Hp)]; [apply G; exact Hp|]. injection Ee as <-. apply G2. exact Hp.
  - intros all ts d n H Ha Ht. cbn [read_syntactic_factor] in H. apply bind_ok in H as ((k & m) & E & H).
    apply bind_ok in H as ((p & n2) & E2 & H). injection H as <- <-. apply from_skip in Ht.
    assert (Hm : from m).
    { destruct (skip_trivia ts) as [|t r]; [injection E as _ <-; constructor|].
      inversion Ht as [|? ? H1 H2]; subst.
      destruct t; try (injection E as _ <-; exact Ht).
      destruct (parse_u32 s); [|discriminate]. apply from_skip in H2. destruct (skip_trivia r) as [|t2 r2]; [discriminate|].
      inversion H2 as [|? ? H3 H4]; subst. destruct t2; try discriminate. injection E as _ <-. apply from_skip. exact H4. }
    exact (IHpr _ _ _ _ E2 Ha Hm).
  - intros all ts d n H Ha Ht. cbn [read_syntactic_primary] in H. apply from_skip in Ht.
    assert (K : forall o c t0 r (mk : definition_list -> primary) l,
       (forall d, mk d = POptional l d \/ mk d = PRepeated l d \/ mk d = PGrouped l d) -> P l -> from r ->
       bind (match find_close o c 0 r with
             | Some (sub, nx) => let? d := read_definition_list f sub sub in Ok (d, nx)
             | None => Err {| e_loc := tok_loc t0; e_msg := MNotClosed (tok_name t0) (tok_debug t0) |}
             end) (fun '(d, nx) => Ok (mk d, nx)) = Ok (d, n) ->
       (forall p, inside p d -> P (p_loc p)) /\ from n).
    { intros o c t0 r mk l Hmk Hl Hr E. destruct (find_close o c 0 r) as [[sb nx]|] eqn:Ef; [|discriminate].
      destruct (from_close _ _ _ _ _ _ Ef Hr) as (F1 & F2).
      apply bind_ok in E as ((d' & nx') & E & E2). injection E2 as <- <-. apply bind_ok in E as (d2 & E & E2).
      injection E2 as <- <-. split; [|exact F2]. intros p Hp.
      eapply inside_defs; [apply Hmk|exact Hl|exact (IHdl _ _ _ E F1 F1)|exact Hp]. }
    assert (L : forall q n', P (p_loc q) -> from n' -> (forall d l, q <> POptional l d /\ q <> PRepeated l d /\ q <> PGrouped l d) ->
      (forall p, inside p q -> P (p_loc p)) /\ from n').
    { intros q n' Hq Hn' Hl. split; [|exact Hn']. intros p Hp. apply inside_leaf in Hp; [|exact Hl]. subst p. exact Hq. }
    destruct (skip_trivia ts) as [|t r].
    + injection H as <- <-. apply L; [|constructor|intros; repeat split; discriminate]. cbn [p_loc].
      destruct (rev all) as [|t r] eqn:Er; [exact Punknown|].
      assert (Hin : In t all) by (apply in_rev; rewrite Er; left; reflexivity).
      rewrite Forall_forall in Ha. exact (Ha t Hin).
    + inversion Ht as [|? ? H1 H2]; subst.
      assert (Em : forall n' q, (d, n) = (PEmpty (tok_loc t), n') -> n' = q -> from q -> (forall p, inside p d -> P (p_loc p)) /\ from n).
      { intros n' q E <- Hq. injection E as -> ->. apply L; [exact H1|exact Hq|intros; repeat split; discriminate]. }
      destruct t; try (injection H as <- <-; eapply Em; [reflexivity|reflexivity|exact Ht]).
      * destruct (_ && _); [discriminate|]. eapply (K _ _ (TStartOption l s)); [|exact H1|exact H2|exact H]. auto.
      * destruct (_ && _); [discriminate|]. eapply (K _ _ (TStartRepeat l s)); [|exact H1|exact H2|exact H]. auto.
      * eapply (K _ _ (TStartGroup l)); [|exact H1|exact H2|exact H]. auto.
      * destruct (read_meta_identifier (TMeta l s :: r)) as ((id & l') & nx) eqn:E. injection H as <- <-.
        destruct (from_rmi _ _ _ _ E Ht) as (F & _). apply L; [exact H1|exact F|intros; repeat split; discriminate].
      * injection H as <- <-. apply L; [exact H1|exact H2|intros; repeat split; discriminate].
      * injection H as <- <-. apply L; [exact H1|exact H2|intros; repeat split; discriminate].
Qed.
Lemma build_places : forall ts r, build_syntax_rule ts = Ok (Some r) -> from ts ->
  P (r_loc r) /\ forall p, part_of p r -> P (p_loc p).
Proof.
  intros ts r H HF. unfold build_syntax_rule in H. destruct (one_final_terminator ts); [|discriminate]. cbn [negb] in H.
  destruct (read_meta_identifier ts) as ((id & loc) & next) eqn:E. destruct (from_rmi _ _ _ _ E HF) as (Fn & Fl).
  apply from_skip in Fn. destruct (skip_trivia next) as [|t k]; [discriminate|]. inversion Fn as [|? ? H1 H2]; subst.
  destruct loc as [l|]; [|destruct (is_terminator t); discriminate].
  destruct (is_defining_symbol t); [|discriminate]. cbn [negb] in H. destruct id; [discriminate|].
  apply bind_ok in H as (d & E2 & H). injection H as <-. cbn [r_loc]. split; [apply Fl; reflexivity|].
  pose proof (proj1 (read_places _) _ _ _ E2 HF H2) as G. intros p (s & t' & Hs & Ht & Hp). cbn [r_defs] in Hs.
  unfold good_defs in G. rewrite Forall_forall in G. specialize (G s Hs). unfold good_single in G.
  rewrite Forall_forall in G. exact (G t' Ht p Hp).
Qed.
Lemma append_places : forall ts cur c rs, append_loop cur ts = (c, Ok rs) -> from cur -> from ts ->
  forall r, In r rs -> P (r_loc r) /\ forall p, part_of p r -> P (p_loc p).
Proof.
  induction ts as [|t ts IH]; intros cur c rs H Hc Ht r Hr; cbn [append_loop] in H.
  - injection H as _ <-. destruct Hr.
  - inversion Ht as [|? ? H1 H2]; subst.
    assert (Hc' : from (cur ++ [t])) by (apply Forall_app; split; [exact Hc|constructor; [exact H1|constructor]]).
    destruct (is_terminator t); [|eapply IH; eassumption].
    destruct (build_syntax_rule (cur ++ [t])) as [o| | |] eqn:E; try discriminate.
    destruct (append_loop [] ts) as [c' [rs'| | |]] eqn:E2; try discriminate. injection H as _ <-.
    apply in_app_or in Hr as [Hr|Hr].
    + destruct o as [r'|]; [|destruct Hr]. destruct Hr as [->|[]]. eapply build_places; eassumption.
    + eapply IH; [exact E2|constructor|exact H2|exact Hr].
Qed.
End Places.

Lemma classic_empty : forall p, is_empty p \/ ~ is_empty p.
Proof. destruct p; cbn; auto. Qed.
Lemma parse_places : forall name s rs r p, parse_str name s = Ok rs -> In r rs -> part_of p r ->
  (exists u v, s = u ++ v /\ reaches (loc_new name) u (p_loc p)) \/
  (is_empty p /\ p_loc p = loc_new (of_string "<unknown>")).
Proof.
  intros name s rs r p H Hr Hp.
  destruct (classic_empty p) as [He|He].
  - pose proof H as H'. apply parse_str_ok in H' as (ts & c & Hl & Ha).
    set (P := fun l => (exists u v, s = u ++ v /\ reaches (loc_new name) u l) \/ l = loc_new (of_string "<unknown>")).
    assert (HP : P (p_loc p)).
    { eapply (append_places P); [right; reflexivity|exact Ha|constructor| |exact Hr|exact Hp].
      apply Forall_forall. intros t Ht. apply in_split in Ht as (a & b & ->). left.
      exists (flat_map tok_text a), (flat_map tok_text (t :: b)). split.
      - rewrite <- flat_map_app. symmetry. eapply lexes_text. exact Hl.
      - eapply lexes_locations; [exact Hl|reflexivity]. }
    destruct HP as [HP|HP]; [left; exact HP|right; auto].
  - left. destruct (parse_located _ _ _ _ H Hr) as (_ & F). destruct (F p Hp He) as (u & v & E & Hre & _). eauto.
Qed.
