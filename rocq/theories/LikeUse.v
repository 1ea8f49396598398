(** Where corresponding rules come from: other locations, other rules around, other names. *)
From Coq Require Import String List NArith Arith Bool Lia Permutation.
From Verif Require Import Base Ident Tokenizer Ast Lex Syntax Io Graph Machine SpecText SpecSyntax SpecIo TextFacts SyntaxFacts IoFacts SpecGram SpecParse SpecMachine SpecEvents SpecLike Pure ParseFacts CodeFacts EvFacts MachineFacts LikeFacts.
Import ListNotations.
Open Scope nat_scope.

(** ** Trees *)
Lemma like_lists : forall L N d d', Forall2 (Forall2 (like_term L N)) d d' -> like_defs L N d d'.
Proof.
  intros L N d d' H. induction H as [|s s' d d' Hs Hd IH]; [constructor|]. constructor; [|exact IH].
  induction Hs as [|t t' s s' Ht Hs IHs]; constructor; assumption.
Qed.
Definition reloc_ok (p : primary) : Prop := forall p', reloc_primary nowhere nowhere p = reloc_primary nowhere nowhere p' -> like any eq p p'.
Lemma reloc_term_like : forall t t', P_term reloc_ok t -> reloc_term nowhere nowhere t = reloc_term nowhere nowhere t' -> like_term any eq t t'.
Proof.
  intros [[n p] x] [[n' p'] x'] (Hp & Hx) E. cbn in *. injection E as -> Ep Ex. destruct x as [[m q]|], x' as [[m' q']|]; try discriminate; cbn in *.
  - injection Ex as -> Ex. constructor; [apply Hp; exact Ep|apply Hx; exact Ex].
  - constructor. apply Hp. exact Ep.
Qed.
Lemma reloc_defs_like : forall d d', Forall (Forall (P_term reloc_ok)) d -> reloc_defs nowhere nowhere d = reloc_defs nowhere nowhere d' -> like_defs any eq d d'.
Proof.
  intros d d' H. revert d'. induction H as [|s d Hs Hd IHd]; intros [|s' d'] E; try discriminate; [constructor|].
  cbn in E. injection E as Es Ed. constructor; [|apply IHd; exact Ed].
  clear - Hs Es. revert s' Es. induction Hs as [|t s Ht Hs IHs]; intros [|t' s'] E; try discriminate; [constructor|].
  cbn [reloc_single map] in E. assert (E1 : reloc_term nowhere nowhere t = reloc_term nowhere nowhere t') by congruence.
  assert (E2 : map (reloc_term nowhere nowhere) s = map (reloc_term nowhere nowhere) s') by congruence.
  constructor; [apply reloc_term_like; assumption|apply IHs; exact E2].
Qed.
Lemma reloc_like : forall p, reloc_ok p.
Proof.
  intros p. induction p as [l d IH|l d IH|l d IH|l id|l s|l s|l] using primary_nested; intros p' E; destruct p' as [l' d'|l' d'|l' d'|l' id'|l' s'|l' s'|l'];
    try discriminate; cbn in E; try (injection E as E); subst; try (constructor; exact I || reflexivity).
  - apply lk_optional; [exact I|]. apply reloc_defs_like; [exact IH|exact E].
  - apply lk_repeated; [exact I|]. apply reloc_defs_like; [exact IH|exact E].
  - apply lk_grouped; [exact I|]. apply reloc_defs_like; [exact IH|exact E].
Qed.
Lemma reloc_rule_like : forall r r', eq_but_loc r r' -> like_rule any eq r r'.
Proof.
  intros [l id d] [l' id' d'] E. unfold eq_but_loc, reloc_rule in E. cbn in E. injection E as -> E. split; [exact I|]. split; [reflexivity|]. cbn.
  assert (K : like any eq (PGrouped l d) (PGrouped l' d')).
  { apply reloc_like. cbn. f_equal. exact E. }
  inversion K; subst. assumption.
Qed.
Lemma like_mono : forall (L L' : location -> location -> Prop) (N N' : str -> str -> Prop) (Q : primary -> Prop),
  (forall a b, L a b -> L' a b) -> (forall l a b, Q (PMeta l a) -> N a b -> N' a b) ->
  (forall l d s t, Q (POptional l d) \/ Q (PRepeated l d) \/ Q (PGrouped l d) -> In s d -> In t s ->
     Q (f_prim (t_factor t)) /\ forall e, t_exc t = Some e -> Q (f_prim e)) ->
  (forall p p', like L N p p' -> Q p -> like L' N' p p') /\
  (forall d d', like_defs L N d d' ->
     (forall s t, In s d -> In t s -> Q (f_prim (t_factor t)) /\ forall e, t_exc t = Some e -> Q (f_prim e)) -> like_defs L' N' d d') /\
  (forall s s', like_seq L N s s' ->
     (forall t, In t s -> Q (f_prim (t_factor t)) /\ forall e, t_exc t = Some e -> Q (f_prim e)) -> like_seq L' N' s s') /\
  (forall t t', like_term L N t t' -> (Q (f_prim (t_factor t)) /\ forall e, t_exc t = Some e -> Q (f_prim e)) -> like_term L' N' t t').
Proof.
  intros L L' N N' Q HL HN HQ.
  assert (X := like_mut L N (fun p p' _ => Q p -> like L' N' p p')
    (fun d d' _ => (forall s t, In s d -> In t s -> Q (f_prim (t_factor t)) /\ forall e, t_exc t = Some e -> Q (f_prim e)) -> like_defs L' N' d d')
    (fun s s' _ => (forall t, In t s -> Q (f_prim (t_factor t)) /\ forall e, t_exc t = Some e -> Q (f_prim e)) -> like_seq L' N' s s')
    (fun t t' _ => (Q (f_prim (t_factor t)) /\ forall e, t_exc t = Some e -> Q (f_prim e)) -> like_term L' N' t t')).
  apply X; clear X; intros; try (constructor; eauto; fail).
  - constructor; [apply H; intros; eapply H1; [left; reflexivity|assumption]|apply H0; intros; eapply H1; [right; eassumption|assumption]].
  - constructor; [apply H; apply H1; left; reflexivity|apply H0; intros; apply H1; right; assumption].
  - constructor. apply H. apply H0.
  - constructor; [apply H; apply H1|apply H0; exact (proj2 H1 _ eq_refl)].
Qed.
Lemma like_refl : forall p, like eq eq p p.
Proof.
  intros p. induction p as [l d IH|l d IH|l d IH|l id|l s|l s|l] using primary_nested; try (constructor; reflexivity).
  all: constructor; [reflexivity|]; apply like_lists; induction IH as [|s d Hs Hd IHd]; constructor; [|exact IHd];
    induction Hs as [|t s Ht Hs IHs]; constructor; [|exact IHs]; destruct t as [[n p] [[m q]|]]; destruct Ht as (Hp & Hx); constructor; assumption.
Qed.
Lemma like_rule_refl : forall r, like_rule eq eq r r.
Proof.
  intros [l id d]. split; [reflexivity|]. split; [reflexivity|]. cbn. pose proof (like_refl (PGrouped l d)) as K. inversion K; subst. assumption.
Qed.
(** Only the references matter. *)
Lemma like_rule_refs : forall L (N N' : str -> str -> Prop) r r', like_rule L N r r' -> N' (r_id r) (r_id r') ->
  (forall l a b, refers_deep r l a -> N a b -> N' a b) -> like_rule L N' r r'.
Proof.
  intros L N N' r r' (H1 & H2 & H3) Hi HN. split; [exact H1|]. split; [exact Hi|].
  pose (Q := fun p => forall x, inside x p -> inside x (PGrouped (r_loc r) (r_defs r))).
  assert (HQ : forall l d s t, Q (POptional l d) \/ Q (PRepeated l d) \/ Q (PGrouped l d) -> In s d -> In t s ->
     Q (f_prim (t_factor t)) /\ forall e, t_exc t = Some e -> Q (f_prim e)).
  { intros l d s t K Hs Ht. split; [|intros e He]; intros x Hx;
      destruct K as [K|[K|K]]; apply K; eapply inside_deeper; eauto. }
  refine (proj1 (proj2 (like_mono L L N N' Q (fun _ _ h => h) _ HQ)) _ _ H3 _).
  - intros l a b K. apply (HN l). apply K. apply inside_here.
  - intros s t Hs Ht. apply (HQ (r_loc r) (r_defs r) s t); [|exact Hs|exact Ht]. right; right. intros x Hx. exact Hx.
Qed.

(** ** Names of constructs *)
Section Names.
Variable L : location -> location -> Prop.
Variable N : str -> str -> Prop.
Variables cfg cfg' : config.
Hypothesis HN : forall a b, N a b -> a = b.
Lemma show_like :
  (forall p p', like L N p p' -> show_primary p = show_primary p') /\
  (forall d d', like_defs L N d d' -> map show_single d = map show_single d') /\
  (forall s s', like_seq L N s s' -> map show_term s = map show_term s') /\
  (forall t t', like_term L N t t' -> show_term t = show_term t').
Proof.
  assert (X := like_mut L N (fun p p' _ => show_primary p = show_primary p') (fun d d' _ => map show_single d = map show_single d')
    (fun s s' _ => map show_term s = map show_term s') (fun t t' _ => show_term t = show_term t')).
  apply X; clear X; intros; try reflexivity.
  - change ([c_lbrk] ++ show_defs d ++ [c_rbrk] = [c_lbrk] ++ show_defs d' ++ [c_rbrk]). unfold show_defs. rewrite H. reflexivity.
  - change ([c_lbrace] ++ show_defs d ++ [c_rbrace] = [c_lbrace] ++ show_defs d' ++ [c_rbrace]). unfold show_defs. rewrite H. reflexivity.
  - change ([c_lpar] ++ show_defs d ++ [c_rpar] = [c_lpar] ++ show_defs d' ++ [c_rpar]). unfold show_defs. rewrite H. reflexivity.
  - apply HN. assumption.
  - cbn [map]. rewrite H0. f_equal. unfold show_single. rewrite H. reflexivity.
  - cbn [map]. rewrite H, H0. reflexivity.
  - unfold show_term, show_factor. cbn. rewrite H. reflexivity.
  - unfold show_term, show_factor. cbn. rewrite H, H0. reflexivity.
Qed.
Hypothesis HL : forall l l' c, L l l' -> scanner_symbol (cfg l c) = scanner_symbol (cfg' l' c).
Lemma name_like :
  (forall p p', like L N p p' -> prim_name cfg p = prim_name cfg' p') /\
  (forall d d', like_defs L N d d' -> map (seq_name cfg) d = map (seq_name cfg') d') /\
  (forall s s', like_seq L N s s' -> seq_name cfg s = seq_name cfg' s') /\
  (forall t t', like_term L N t t' -> term_name cfg t = term_name cfg' t').
Proof.
  destruct show_like as (S1 & S2 & S3 & S4).
  assert (X := like_mut L N (fun p p' _ => prim_name cfg p = prim_name cfg' p') (fun d d' _ => map (seq_name cfg) d = map (seq_name cfg') d')
    (fun s s' _ => seq_name cfg s = seq_name cfg' s') (fun t t' _ => term_name cfg t = term_name cfg' t')).
  apply X; clear X; intros; try reflexivity.
  - change (show_primary (POptional l d) = show_primary (POptional l' d')). apply S1. constructor; assumption.
  - change (show_primary (PRepeated l d) = show_primary (PRepeated l' d')). apply S1. constructor; assumption.
  - change (listing (map (seq_name cfg) d) = listing (map (seq_name cfg') d')). rewrite H. reflexivity.
  - apply HN. assumption.
  - cbn. apply HL. assumption.
  - cbn [map]. rewrite H, H0. reflexivity.
  - cbn [seq_name]. exact H.
  - unfold term_name, factor_name. cbn [t_exc t_factor f_rep f_prim]. destruct (N.eqb n 1); [exact H|]. unfold show_factor. cbn. rewrite (S1 _ _ l). reflexivity.
  - unfold term_name. cbn [t_exc]. apply S4. constructor; assumption.
Qed.
Lemma defs_name_like : forall d d', like_defs L N d d' -> defs_name cfg d = defs_name cfg' d'.
Proof. intros d d' H. unfold defs_name. rewrite (proj1 (proj2 name_like) _ _ H). reflexivity. Qed.
Lemma term_show_like : forall t t', like_term L N t t' -> show_term t = show_term t'.
Proof. apply show_like. Qed.
End Names.

(** ** Locations *)
Lemma forall2_in : forall A (R : A -> A -> Prop) a b x, Forall2 R a b -> In x a -> exists y, In y b /\ R x y.
Proof. intros A R a b x H. induction H as [|u v a b Huv H IH]; intros []; [subst; exists v; split; [left; reflexivity|exact Huv]|]. destruct IH as (y & Hy & K); [assumption|]. exists y. split; [right; exact Hy|exact K]. Qed.
Lemma forall2_in_r : forall A (R : A -> A -> Prop) a b y, Forall2 R a b -> In y b -> exists x, In x a /\ R x y.
Proof. intros A R a b x H. induction H as [|u v a b Huv H IH]; intros []; [subst; exists u; split; [left; reflexivity|exact Huv]|]. destruct IH as (y & Hy & K); [assumption|]. exists y. split; [right; exact Hy|exact K]. Qed.
Section Locations.
Variables rs1 rs2 : list rule.
Variable cfg : config.
Hypothesis Hrs : Forall2 eq_but_loc rs1 rs2.
Hypothesis Hcfg : placeless cfg.
Lemma moved : forall r, In r rs1 -> exists r', In r' rs2 /\ like_rule any eq r r' /\ r_id r = r_id r'.
Proof.
  intros r Hr. destruct (forall2_in _ _ _ _ _ Hrs Hr) as (r' & Hr' & K). apply reloc_rule_like in K. exists r'. split; [exact Hr'|]. split; [exact K|apply K].
Qed.
Lemma moved_back : forall r', In r' rs2 -> exists r, In r rs1 /\ r_id r = r_id r'.
Proof.
  intros r Hr. destruct (forall2_in_r _ _ _ _ _ Hrs Hr) as (r' & Hr' & K). apply reloc_rule_like in K. exists r'. split; [exact Hr'|]. apply K.
Qed.
Lemma moved_defined : forall id, defined rs2 id -> defined rs1 id.
Proof. intros id (r & Hr & Hs). destruct (moved_back r Hr) as (r1 & Hr1 & E). exists r1. rewrite E. auto. Qed.
Lemma moved_names : forall id r, names rs1 id r -> exists r', names rs2 id r' /\ like_rule any eq r r' /\ r_id r = r_id r'.
Proof. intros id r (Hr & Hs). destruct (moved r Hr) as (r' & Hr' & K & E). exists r'. split; [split; [exact Hr'|rewrite <- E; exact Hs]|auto]. Qed.
Lemma parse_moved : forall g1 g2 id m1 m2 debug fuel1 rd,
  parser_for rs1 cfg g1 id m1 -> parser_for rs2 cfg g2 id m2 -> reader rd -> ending_of rd = None ->
  fst (parser_parse debug g1 fuel1 m1 rd) <> OutOfFuel ->
  exists f0, forall fuel, f0 <= fuel ->
    same_but_definitions (fst (parser_parse debug g1 fuel1 m1 rd)) (fst (parser_parse debug g2 fuel m2 rd)).
Proof.
  intros g1 g2 id m1 m2 debug fuel1 rd Hp1 Hp2 Hr He Hf.
  refine (parse_like any eq eq eq eq rs1 rs2 cfg cfg _ _ _ _ _ _ _ _ _ _ eq_refl _ g1 g2 id id m1 m2 debug fuel1 rd _ Hp1 Hp2 Hr He Hf).
  - intros x y r <-. apply moved_names.
  - intros x y <-. apply moved_defined.
  - intros x y r <- K. destruct (moved_names _ _ K) as (r' & A & B & _). eauto.
  - intros x y r <- Hi Hd. destruct (moved r Hi) as (r' & A & B & E). exists r'. split; [exact A|]. split; [|exact B]. unfold dollar in *. rewrite <- E. exact Hd.
  - intros x y <-. apply moved_defined.
  - intros x y r <- Hi Hd. destruct (moved_back r Hi) as (r1 & A & E). exists r1. split; [exact A|]. unfold dollar in *. rewrite E. exact Hd.
  - intros l l' c s a _. apply (Hcfg l l' c).
  - intros l l' c _. apply (Hcfg l l' c).
  - intros t t'. apply term_show_like. auto.
  - intros d d'. apply defs_name_like; [auto|]. intros l l' c _. apply (Hcfg l l' c).
  - intros a b a' b' -> ->. reflexivity.
  - intros r K. destruct (moved_names _ _ K) as (r' & A & B & _). eauto.
Qed.
End Locations.

(** ** Rules *)
Lemma events_eq : forall a b, like_events eq eq a b -> a = b.
Proof. intros a b H. induction H as [|x y a b Hxy H IH]; [reflexivity|]. destruct Hxy; subst; reflexivity. Qed.
Lemma error_eq : forall F : str -> str -> Prop, (forall a b, F a b -> a = b) -> forall e e', like_error eq eq F e e' -> e = e'.
Proof. intros F HF e e' H. destruct H as [e|l x x' a Hx|l i i' x x' d d' Hi Hx Hd]; [reflexivity|subst; reflexivity|apply HF in Hi; subst; reflexivity]. Qed.
Lemma answer_eq : forall F : str -> str -> Prop, (forall a b, F a b -> a = b) -> forall a b, like_answer eq eq eq F a b -> same_answer a b.
Proof.
  intros F HF [x|x|x|] [y|y|y|] H; cbn in *; try contradiction; try exact I.
  - rewrite (events_eq _ _ H). reflexivity.
  - rewrite (error_eq F HF _ _ H). reflexivity.
Qed.
Lemma events_refl : forall (L : location -> location -> Prop) (B : str -> str -> Prop) e, (forall l, L l l) -> (forall b, B b b) -> like_events L B e e.
Proof. intros L B e HL HB. induction e as [|x e IH]; constructor; [|exact IH]. destruct x; constructor; auto. Qed.
Lemma sres_refl : forall (L : location -> location -> Prop) (B : str -> str -> Prop) (X : str -> str -> Prop) (F : str -> str -> Prop) a, (forall l, L l l) -> (forall b, B b b) -> (forall id s, a = SForward id s -> F id id) -> like_sres L B X F a a.
Proof.
  intros L B X F [s e| |id s|e] HL HB HF; cbn.
  - split; [reflexivity|apply events_refl; assumption].
  - exact I.
  - split; [reflexivity|]. apply (HF _ _ eq_refl).
  - constructor.
Qed.
(** The rules in another order. *)
Section Order.
Variables rs1 rs2 : list rule.
Variable cfg : config.
Hypothesis Hrs : forall r, In r rs1 <-> In r rs2.
Lemma order_names : forall id r, names rs1 id r -> names rs2 id r.
Proof. intros id r (A & B). split; [apply Hrs; exact A|exact B]. Qed.
Lemma parse_order : forall g1 g2 id m1 m2 debug fuel1 rd,
  parser_for rs1 cfg g1 id m1 -> parser_for rs2 cfg g2 id m2 -> reader rd -> ending_of rd = None ->
  fst (parser_parse debug g1 fuel1 m1 rd) <> OutOfFuel ->
  exists f0, forall fuel, f0 <= fuel ->
    same_answer (fst (parser_parse debug g1 fuel1 m1 rd)) (fst (parser_parse debug g2 fuel m2 rd)).
Proof.
  intros g1 g2 id m1 m2 debug fuel1 rd Hp1 Hp2 Hr He Hf.
  assert (Hd : forall x, defined rs2 x -> defined rs1 x). { intros x (r & A & B). exists r. split; [apply Hrs; exact A|exact B]. }
  enough (K : exists f0, forall fuel, f0 <= fuel -> like_answer eq eq eq eq (fst (parser_parse debug g1 fuel1 m1 rd)) (fst (parser_parse debug g2 fuel m2 rd))).
  { destruct K as (f0 & K). exists f0. intros fuel Hle. apply (answer_eq eq); [auto|]. apply K. exact Hle. }
  refine (parse_like eq eq eq eq eq rs1 rs2 cfg cfg _ _ _ _ _ _ _ _ _ _ eq_refl _ g1 g2 id id m1 m2 debug fuel1 rd _ Hp1 Hp2 Hr He Hf).
  - intros x y r <- K. exists r. split; [apply order_names; exact K|]. split; [apply like_rule_refl|reflexivity].
  - intros x y <-. apply Hd.
  - intros x y r <- K. exists r. split; [apply order_names; exact K|apply like_rule_refl].
  - intros x y r <- Hi Hdl. exists r. split; [apply Hrs; exact Hi|]. split; [exact Hdl|apply like_rule_refl].
  - intros x y <-. apply Hd.
  - intros x y r <- Hi Hdl. exists r. split; [apply Hrs; exact Hi|exact Hdl].
  - intros l l' c s a <- K. exists a. split; [exact K|]. apply sres_refl; auto.
  - intros l l' c <-. reflexivity.
  - intros t t'. apply term_show_like. auto.
  - intros d d'. apply defs_name_like; [auto|]. intros l l' c <-. reflexivity.
  - intros a b a' b' -> ->. reflexivity.
  - intros r K. exists r. split; [apply order_names; exact K|apply like_rule_refl].
Qed.
End Order.
(** The rules that are not reached. *)
Section Reached.
Variables rs1 rs2 : list rule.
Variable cfg : config.
Variable id : str.
Hypothesis Hone : no_repeat rs1.
Hypothesis Hrs : forall r, reached rs1 id r -> In r rs2.
Hypothesis Hdef : forall r l x, reached rs1 id r -> refers_deep r l x -> defined rs2 x -> defined rs1 x.
Hypothesis Hcfg : no_forwarding cfg.
Definition wanted_name (x : str) : Prop := exists r, reached rs1 id r /\ (r_id r = x \/ exists l, refers_deep r l x).
Definition kept_name (a b : str) : Prop := a = b /\ wanted_name a.
Lemma reached_in : forall r, reached rs1 id r -> In r rs1.
Proof. intros r H. destruct H as [r H|r l x r' _ _ H]; apply H. Qed.
Lemma reached_names : forall x r, wanted_name x -> names rs1 x r -> reached rs1 id r.
Proof.
  intros x r (r0 & Hr0 & [E|(l & Hl)]) Hn.
  - replace r with r0; [exact Hr0|]. eapply (names_unique rs1 (r_id r0)); [exact Hone| |].
    + split; [apply reached_in; exact Hr0|]. apply same_name_keyed. reflexivity.
    + rewrite E. exact Hn.
  - eapply rc_more; eassumption.
Qed.
Lemma reached_like : forall r, reached rs1 id r -> like_rule eq kept_name r r.
Proof.
  intros r H. apply (like_rule_refs eq eq); [apply like_rule_refl| |].
  - split; [reflexivity|]. exists r. auto.
  - intros l a b Hl <-. split; [reflexivity|]. exists r. eauto.
Qed.
Lemma parse_reached : forall g1 g2 m1 m2 debug fuel1 rd,
  parser_for rs1 cfg g1 id m1 -> parser_for rs2 cfg g2 id m2 -> reader rd -> ending_of rd = None ->
  fst (parser_parse debug g1 fuel1 m1 rd) <> OutOfFuel ->
  exists f0, forall fuel, f0 <= fuel ->
    same_answer (fst (parser_parse debug g1 fuel1 m1 rd)) (fst (parser_parse debug g2 fuel m2 rd)).
Proof.
  intros g1 g2 m1 m2 debug fuel1 rd Hp1 Hp2 Hr He Hf.
  enough (K : exists f0, forall fuel, f0 <= fuel -> like_answer eq eq eq none (fst (parser_parse debug g1 fuel1 m1 rd)) (fst (parser_parse debug g2 fuel m2 rd))).
  { destruct K as (f0 & K). exists f0. intros fuel Hle. apply (answer_eq none); [intros a b []|]. apply K. exact Hle. }
  refine (parse_like eq kept_name eq eq none rs1 rs2 cfg cfg _ _ _ _ _ _ _ _ _ _ eq_refl _ g1 g2 id id m1 m2 debug fuel1 rd _ Hp1 Hp2 Hr He Hf).
  - intros x y r (<- & Hx) K. pose proof (reached_names _ _ Hx K) as Hre. exists r. split; [|split; [apply reached_like; exact Hre|reflexivity]].
    split; [apply Hrs; exact Hre|apply K].
  - intros x y (<- & r & Hre & [E|(l & Hl)]) Hd; [|eapply Hdef; eassumption]. exists r. split; [apply reached_in; exact Hre|]. rewrite E. apply same_name_keyed. reflexivity.
  - intros x y r [].
  - intros x y r [].
  - intros x y [].
  - intros x y r [].
  - intros l l' c s a <- K. exists a. split; [exact K|]. apply sres_refl; auto. intros x s' ->. exact (Hcfg _ _ _ _ _ K).
  - intros l l' c <-. reflexivity.
  - intros t t'. apply term_show_like. intros a b (E & _). exact E.
  - intros d d'. apply defs_name_like; [intros a b (E & _); exact E|]. intros l l' c <-. reflexivity.
  - intros a b a' b' -> ->. reflexivity.
  - intros r K. exists r. assert (Hre : reached rs1 id r) by (apply rc_start; exact K). split; [|apply reached_like; exact Hre]. split; [apply Hrs; exact Hre|apply K].
Qed.
End Reached.
(** Other names. *)
Section Renamed.
Variables rs1 rs2 : list rule.
Variable cfg : config.
Variable f : str -> str.
Hypothesis Hone : no_repeat rs1.
Hypothesis Hrs : renamed f rs1 rs2.
Hypothesis Hf : forall r x, In r rs1 -> mentioned rs1 x -> (same_name (f x) (f (r_id r)) <-> same_name x (r_id r)).
Hypothesis Hcfg : no_forwarding cfg.
Hypothesis Htok : token_scanners cfg.
Definition new_name (a b : str) : Prop := b = f a /\ mentioned rs1 a.
Definition new_label (a b : str) : Prop := b = f a /\ exists r, In r rs1 /\ r_id r = a.
Lemma like_weaker : forall d d', like_defs eq new_name d d' -> like_defs eq (fun a b => b = f a) d d'.
Proof.
  intros d d' H. refine (proj1 (proj2 (like_mono eq eq new_name (fun a b => b = f a) (fun _ => True) _ _ _)) d d' H _); auto.
  intros l a b _ (E & _). exact E.
Qed.
Lemma renamed_in : forall r, In r rs1 -> exists r', In r' rs2 /\ like_rule eq new_name r r' /\ r_id r' = f (r_id r).
Proof.
  intros r Hr. destruct (forall2_in _ _ _ _ _ Hrs Hr) as (r' & Hr' & K). exists r'. split; [exact Hr'|]. split; [|apply K].
  apply (like_rule_refs _ (fun a b => b = f a)); [exact K| |].
  - split; [apply K|]. exists r. auto.
  - intros l a b Hl E. split; [exact E|]. exists r. eauto.
Qed.
Lemma renamed_names : forall x r, mentioned rs1 x -> names rs1 x r -> exists r', names rs2 (f x) r' /\ like_rule eq new_name r r' /\ new_label (r_id r) (r_id r').
Proof.
  intros x r Hx (Hr & Hs). destruct (renamed_in r Hr) as (r' & Hr' & K & E). exists r'. split; [|split; [exact K|]].
  - split; [exact Hr'|]. rewrite E. apply Hf; assumption.
  - split; [exact E|]. exists r. auto.
Qed.
Lemma parse_renamed : forall g1 g2 id id' m1 m2 debug fuel1 rd,
  parser_for rs1 cfg g1 id m1 -> parser_for rs2 cfg g2 id' m2 -> reader rd -> ending_of rd = None ->
  (forall r, names rs1 id r -> same_name id' (f (r_id r))) ->
  fst (parser_parse debug g1 fuel1 m1 rd) <> OutOfFuel ->
  exists f0, forall fuel, f0 <= fuel ->
    like_answer eq (fun a b => b = f a) (retold f cfg) none (fst (parser_parse debug g1 fuel1 m1 rd)) (fst (parser_parse debug g2 fuel m2 rd)).
Proof.
  intros g1 g2 id id' m1 m2 debug fuel1 rd Hp1 Hp2 Hr He Hst Hfu.
  enough (K : exists f0, forall fuel, f0 <= fuel -> like_answer eq new_label (retold f cfg) none (fst (parser_parse debug g1 fuel1 m1 rd)) (fst (parser_parse debug g2 fuel m2 rd))).
  { destruct K as (f0 & K). exists f0. intros fuel Hle. specialize (K fuel Hle). destruct (fst (parser_parse debug g1 fuel1 m1 rd)), (fst (parser_parse debug g2 fuel m2 rd)); cbn in *; try exact K.
    clear - K. unfold SpecLike.like_events in *. induction K as [|x y u v Hxy K IH]; constructor; [|exact IH]. destruct Hxy as [d d' l w Hd|d d' l b b' Hd (Hb & _)|d d' l b b' Hd (Hb & _)]; constructor; assumption. }
  assert (Hdef : forall x, mentioned rs1 x -> defined rs2 (f x) -> defined rs1 x).
  { intros x Hx (r' & Hr' & Hs). destruct (forall2_in_r _ _ _ _ _ Hrs Hr') as (r & Hi & K). exists r. split; [exact Hi|]. apply Hf; [exact Hi|exact Hx|].
    destruct K as (_ & E & _). rewrite <- E. exact Hs. }
  refine (parse_like eq new_name new_label (retold f cfg) none rs1 rs2 cfg cfg _ _ _ _ _ _ _ _ _ _ (rt_same f cfg _) _ g1 g2 id id' m1 m2 debug fuel1 rd _ Hp1 Hp2 Hr He Hfu).
  - intros x y r (-> & Hx) K. apply renamed_names; assumption.
  - intros x y (-> & Hx). apply Hdef. exact Hx.
  - intros x y r [].
  - intros x y r [].
  - intros x y [].
  - intros x y r [].
  - intros l l' c s a <- K. exists a. split; [exact K|]. destruct a as [s' e| |x s'|e]; cbn.
    + split; [reflexivity|]. pose proof (Htok _ _ _ _ _ K) as Ht. induction Ht as [|y e (d & a & w & ->) Ht IH]; constructor; [constructor; reflexivity|].
      clear - Ht. induction Ht as [|y e (d' & a' & w' & ->) Ht IH]; constructor; [constructor; reflexivity|exact IH].
    + exact I.
    + destruct (Hcfg _ _ _ _ _ K).
    + constructor.
  - intros l l' c <-. apply rt_same.
  - intros t t' Ht. apply rt_exception. assert (K : like_defs eq new_name [[t]] [[t']]) by (repeat constructor; exact Ht).
    apply like_weaker in K. inversion K as [|a b c d K1]; subst. inversion K1; subst. assumption.
  - intros d d' Hd. apply rt_choice. apply like_weaker. exact Hd.
  - intros a b a' b' (-> & r & Hi & <-) (-> & r' & Hi' & <-). split; [intros ->; reflexivity|]. intros E.
    enough (r = r') by (subst; reflexivity). eapply (names_unique rs1 (r_id r)); [exact Hone| |].
    + split; [exact Hi|]. apply same_name_keyed. reflexivity.
    + split; [exact Hi'|]. apply (Hf r' (r_id r)); [exact Hi'|exists r; auto|]. rewrite E. apply same_name_keyed. reflexivity.
  - intros r K. destruct (renamed_in r (proj1 K)) as (r' & Hr' & Hl & E). exists r'. split; [|exact Hl]. split; [exact Hr'|]. rewrite E. apply Hst. exact K.
Qed.
End Renamed.

(** ** Parsers for other rules *)
Lemma no_repeat_keys : forall rs, no_repeat rs <-> NoDup (map (fun r => keyed (r_id r)) rs).
Proof.
  intros rs. split.
  - intros H. induction rs as [|r rs IH]; [constructor|]. cbn. constructor.
    + intros Hi. apply in_map_iff in Hi as (r' & E & Hi). apply In_nth_error in Hi as (i & Hi).
      apply (H (S i) 0 r' r). split; [lia|]. split; [exact Hi|]. split; [reflexivity|]. apply same_name_keyed. exact E.
    + apply IH. intros i j x y (A & B & C & D). apply (H (S i) (S j) x y). split; [lia|]. auto.
  - intros H i j r d (A & B & C & D). apply same_name_keyed in D. rewrite NoDup_nth_error in H. enough (i = j) by lia. apply H.
    + rewrite map_length. apply nth_error_Some. congruence.
    + rewrite !nth_error_map, B, C. cbn. f_equal. exact D.
Qed.
Lemma like_defs_in : forall L N d d' s' t', like_defs L N d d' -> In s' d' -> In t' s' -> exists s t, In s d /\ In t s /\ like_term L N t t'.
Proof.
  intros L N d d' s' t' H Hs Ht. assert (K : Forall2 (like_seq L N) d d').
  { clear - H. induction H as [|a b d d' Hs H IH]; constructor; assumption. }
  destruct (forall2_in_r _ _ _ _ _ K Hs) as (s & Hi & Hl). assert (K' : Forall2 (like_term L N) s s').
  { clear - Hl. induction Hl as [|a b x y Ht H IH]; constructor; assumption. }
  destruct (forall2_in_r _ _ _ _ _ K' Ht) as (t & Hti & Htl). eauto 6.
Qed.
Lemma like_refers : forall r r' l' id, like_rule any eq r r' -> refers r' l' id -> exists l, refers r l id.
Proof.
  intros r r' l' id (_ & _ & K) (s' & t' & Hs & Ht & H). destruct (like_defs_in _ _ _ _ _ _ K Hs Ht) as (s & t & Hs1 & Ht1 & Hl).
  assert (M : forall p p', like any eq p p' -> p' = PMeta l' id -> exists l, p = PMeta l id).
  { intros p p' Hp E. destruct Hp; inversion E; subst. eauto. }
  destruct Hl as [n p p' Hp|n p p' m q q' Hp Hq].
  - destruct H as [H|(e & H & _)]; [|discriminate]. destruct (M _ _ Hp H) as (l & E). exists l, s, (Term (Factor n p) None). cbn. auto.
  - destruct H as [H|(e & H & H')].
    + destruct (M _ _ Hp H) as (l & E). exists l, s. eexists. split; [exact Hs1|]. split; [exact Ht1|]. left. exact E.
    + injection H as <-. destruct (M _ _ Hq H') as (l & E). exists l, s. eexists. split; [exact Hs1|]. split; [exact Ht1|]. right. eexists. split; [reflexivity|exact E].
Qed.
(** Rules that make a syntax and define [id] give a parser. *)
Lemma parser_made : forall rs cfg id, (exists sy, new_syntax rs = Ok sy) -> no_dollar rs -> Forall (fun r => filled_defs (r_defs r)) rs ->
  defined rs id -> exists g m, parser_for rs cfg g id m.
Proof.
  intros rs cfg id (sy & Hs) Hd Hf Hi. destruct (compile_total cfg rs sy Hs Hf) as (g & Hg).
  pose proof (machine_new_cases cfg rs g id (CodeFacts.compile_faithful _ _ _ _ Hs Hd Hg) Hd) as K.
  destruct (machine_new g id) as [[m|]| | |] eqn:E; try contradiction. exists g, m. split; [eauto|]. auto.
Qed.
Lemma parser_defined : forall rs cfg g id m, parser_for rs cfg g id m -> (exists sy, new_syntax rs = Ok sy) /\ no_dollar rs /\ defined rs id.
Proof.
  intros rs cfg g id m ((sy & Hs & Hg) & Hd & Hm). split; [eauto|]. split; [exact Hd|].
  pose proof (machine_new_cases cfg rs g id (CodeFacts.compile_faithful _ _ _ _ Hs Hd Hg) Hd) as K. rewrite Hm in K.
  destruct K as (r & K & _). exists r. exact K.
Qed.
Lemma moved_parser : forall rs1 rs2 cfg g1 id m1, Forall2 eq_but_loc rs1 rs2 -> Forall (fun r => filled_defs (r_defs r)) rs2 ->
  parser_for rs1 cfg g1 id m1 -> exists g2 m2, parser_for rs2 cfg g2 id m2.
Proof.
  intros rs1 rs2 cfg g1 id m1 Hrs Hf Hp. apply parser_defined in Hp as (Hs & Hd & Hi).
  assert (Hdef : forall x, defined rs1 x -> defined rs2 x).
  { intros x (r & A & B). destruct (moved rs1 rs2 Hrs r A) as (r' & A' & _ & E). exists r'. rewrite <- E. auto. }
  apply parser_made; [|intros r w Hr|exact Hf|apply Hdef; exact Hi].
  - apply accepted_iff in Hs as (H1 & H2 & H3). apply accepted_iff. split; [|split].
    + rewrite Forall_forall in *. intros r Hr. destruct (moved_back rs1 rs2 Hrs r Hr) as (r1 & Hr1 & <-). apply H1. exact Hr1.
    + apply no_repeat_keys. apply no_repeat_keys in H2. replace (map (fun r => keyed (r_id r)) rs2) with (map (fun r => keyed (r_id r)) rs1); [exact H2|].
      clear - Hrs. induction Hrs as [|a b x y Hab H IH]; [reflexivity|]. cbn. apply reloc_rule_like in Hab as (_ & -> & _). f_equal. exact IH.
    + intros r l x Hr Hx. destruct (forall2_in_r _ _ _ _ _ Hrs Hr) as (r1 & Hr1 & K). apply reloc_rule_like in K.
      destruct (like_refers _ _ _ _ K Hx) as (l1 & Hl1). apply Hdef. eapply H3; eassumption.
  - destruct (moved_back rs1 rs2 Hrs r Hr) as (r1 & Hr1 & <-). apply Hd. exact Hr1.
Qed.
Lemma order_parser : forall rs1 rs2 cfg g1 id m1, Permutation rs1 rs2 -> Forall (fun r => filled_defs (r_defs r)) rs1 ->
  parser_for rs1 cfg g1 id m1 -> exists g2 m2, parser_for rs2 cfg g2 id m2.
Proof.
  intros rs1 rs2 cfg g1 id m1 Hrs Hf Hp. apply parser_defined in Hp as (Hs & Hd & Hi).
  assert (Hin : forall r, In r rs2 -> In r rs1) by (intros r; apply Permutation_in; apply Permutation_sym; exact Hrs).
  assert (Hdef : forall x, defined rs1 x -> defined rs2 x).
  { intros x (r & A & B). exists r. split; [eapply Permutation_in; eassumption|exact B]. }
  apply parser_made; [|intros r w Hr; apply Hd; apply Hin; exact Hr| |apply Hdef; exact Hi].
  - apply accepted_iff in Hs as (H1 & H2 & H3). apply accepted_iff. split; [|split].
    + rewrite Forall_forall in *. auto.
    + apply no_repeat_keys. apply no_repeat_keys in H2. eapply Permutation_NoDup; [|exact H2]. apply Permutation_map. exact Hrs.
    + intros r l x Hr Hx. apply Hdef. eapply H3; [apply Hin; exact Hr|exact Hx].
  - rewrite Forall_forall in *. auto.
Qed.

(** ** Configurations *)
Lemma library_placeless : forall cfg : config, (forall l c, library_scanner (cfg l c)) -> (forall l l' c, cfg l c = cfg l' c) -> placeless cfg.
Proof.
  intros cfg H1 H2 l l' c. split; [rewrite (H2 l l' c); reflexivity|]. intros s a K. pose proof (H1 l c) as Hl. rewrite <- (H2 l l' c). clear H2.
  inversion K; subst.
  - eexists. split; [apply sn_default|]. split; [reflexivity|constructor].
  - eexists. split; [eapply sn_chars; eassumption|]. split; [reflexivity|]. repeat constructor.
  - eexists. split; [eapply sn_chars_no; eassumption|]. exact I.
  - eexists. split; [eapply sn_regex; eassumption|]. split; [reflexivity|]. repeat constructor.
  - eexists. split; [eapply sn_regex_long; eassumption|]. constructor.
  - eexists. split; [eapply sn_regex_no; eassumption|]. exact I.
  - rewrite <- H in Hl. destruct Hl.
Qed.
Lemma library_tokens : forall cfg : config, (forall l c, library_scanner (cfg l c)) -> no_forwarding cfg /\ token_scanners cfg.
Proof.
  intros cfg H. split.
  - intros l c s id s' K. pose proof (H l c) as Hl. inversion K; subst. rewrite <- H0 in Hl. destruct Hl.
  - intros l c s s' evs K. pose proof (H l c) as Hl. inversion K; subst; try (repeat constructor; eauto; fail).
    rewrite <- H0 in Hl. destruct Hl.
Qed.
