(** The fuel a parse needs grows with its text at most in proportion. *)
From Coq Require Import String List NArith Arith Bool Lia Relations.
From Verif Require Import Base Ident Tokenizer Ast Lex Syntax Io Graph Machine SpecText SpecSyntax SpecIo TextFacts SyntaxFacts IoFacts SpecParse SpecMachine SpecTotal SpecDepth Pure PureFacts ParseFacts CodeFacts RunFacts RunComplete EvFacts MachineFacts TotalFacts.
Import ListNotations.
Open Scope nat_scope.

Lemma pbind_oof : forall A B (m : P A) (k : A -> P B) s, fst (pbind m k s) = OutOfFuel ->
  fst (m s) = OutOfFuel \/ exists a s', m s = (Ok a, s') /\ fst (k a s') = OutOfFuel.
Proof.
  intros A B m k s H. unfold pbind in H. destruct (m s) as ([a|e|p|] & s') eqn:E; try discriminate; [right; eauto|left; reflexivity].
Qed.
Lemma expected_fuel : forall g i s, fst (perr_expected None g i s) <> OutOfFuel.
Proof.
  intros g i s H. rewrite pexpected_none in H. discriminate.
Qed.

(** ** The rules tried without reading *)
Section Chain.
Variable A : Type.
Variable R : A -> A -> Prop.
Variable all : list A.
Hypothesis Hin : forall x y, R x y -> In x all /\ In y all.
Hypothesis Hirr : forall x, ~ clos_trans A R x x.
(** No chain of tries from [x] has more than [n] links. *)
Fixpoint chain (n : nat) (x : A) : Prop :=
  match n with O => False | S n => forall y, R x y -> chain n y end.
Lemma chain_all : forall n x seen, length all < n + length seen -> NoDup seen -> incl seen all ->
  (forall y, In y seen -> clos_trans A R y x) -> chain n x.
Proof.
  induction n as [|n IH]; intros x seen Hn Hd Hi Hs.
  - pose proof (NoDup_incl_length Hd Hi). lia.
  - intros y Hy. destruct (Hin _ _ Hy) as (Hx & _). apply (IH y (x :: seen)).
    + cbn. lia.
    + constructor; [|exact Hd]. intros K. exact (Hirr x (Hs x K)).
    + intros z [<-|Hz]; [exact Hx|apply Hi; exact Hz].
    + intros z [<-|Hz]; [apply t_step; exact Hy|eapply t_trans; [apply Hs; exact Hz|apply t_step; exact Hy]].
Qed.
End Chain.

Section Depth.
Variable rules : list rule.
Variable cfg : config.
Variable g : graph.
Hypothesis Hg : faithful cfg rules g.
Notation ev := (ev rules cfg).
Notation starts := (starts rules cfg).
Notation code := (code cfg (g_instrs g)).
Notation at_ := (at_ (g_instrs g)).
Notation run f := (prun g f None).
Notation still := (still rules cfg).

(** [fits F n s]: with fuel [F] or more the code of [n], on its own, does not run out. *)
Definition fits (F0 : nat) (n : node) (s : pst) : Prop :=
  forall i evs F, code n i None -> F0 <= F -> fst (run F (Some i) evs s) <> OutOfFuel.
(** [needs X w n s]: [n] takes [w] away from what follows it, and [w + X] is enough for itself. *)
Definition needs (X w : nat) (n : node) (s : pst) : Prop :=
  forall i next evs F f, code n i next -> w + f <= F -> w + X <= F ->
  (forall s' e, ev n s (Match s' e) -> fst (run f (exit n next) (evs ++ e) s') <> OutOfFuel) ->
  fst (run F (Some i) evs s) <> OutOfFuel.
Lemma needs_fits : forall X w n s, 1 <= X -> needs X w n s -> fits (w + X) n s.
Proof.
  intros X w n s HX H i evs F Hc HF. apply (H i None evs F 1 Hc); [lia|exact HF|]. intros s' e _. rewrite exit_none. discriminate.
Qed.
Lemma more_fuel : forall f F next evs s, f <= F -> fst (run f next evs s) <> OutOfFuel -> fst (run F next evs s) <> OutOfFuel.
Proof. intros f F next evs s Hle H. rewrite (finer_run g f F None next evs Hle s H). exact H. Qed.
Lemma fits_more : forall F F' n s, F <= F' -> fits F n s -> fits F' n s.
Proof. intros F F' n s Hle H i evs F2 Hc H2. apply H; [exact Hc|lia]. Qed.
Lemma sound : forall f n i evs s a s', code n i None -> run f (Some i) evs s = (Ok a, s') ->
  exists o, ev n s o /\ answers (Ok a, s') evs o.
Proof.
  intros f n i evs s a s' Hc H. destruct (sound_sub rules cfg g f (sound_run rules cfg g Hg f) n i evs s Hc) as (o & Ho & Ha); [rewrite H; discriminate|].
  exists o. rewrite H in Ha. auto.
Qed.

Lemma alias_needs : forall l id sym i next s evs F f Y, at_ i next (StAlias id) l sym ->
  (forall r, names rules id r -> fits Y (NDefs (r_defs r)) s) -> 1 + f <= F -> S Y <= F ->
  (forall s' e, ev (NRef l id) s (Match s' e) -> fst (run f next (evs ++ e) s') <> OutOfFuel) ->
  fst (run F (Some i) evs s) <> OutOfFuel.
Proof.
  intros l id sym i next s evs [|F] f Y Hi Hb H1 H2 Hk; [lia|]. intros H. pose proof H as H0.
  rewrite (run_at g F i next _ l evs s sym Hi) in H. cbv beta zeta iota in H.
  destruct (defined_dec rules id) as [(r & Hr)|Hu].
  - destruct (Hg id) as (HA & _). destruct (HA r Hr) as (a & Hla & Hca & Hcn). rewrite Hla, Hcn in H. rewrite (pbind_ok ploc _ s _ _ eq_refl) in H.
    apply pbind_oof in H as [H|((p & t) & s1 & E & H)]; [revert H; apply (Hb r Hr); [exact Hca|lia]|].
    destruct p as [|e]; [|discriminate]. rewrite (pbind_ok ploc _ s1 _ _ eq_refl) in H.
    destruct (sound _ _ _ _ _ _ _ Hca E) as (o & Ho & Ha). destruct o as [s' e'|l' s' e'|[e'|]]; cbn in Ha; try (destruct Ha as (? & ?); discriminate); try (destruct Ha as (? & ? & ?); discriminate).
    injection Ha as -> ->. revert H. apply (more_fuel f); [lia|]. apply Hk. eapply ev_ref; eauto.
  - destruct (Hg id) as (_ & _ & HC & _). rewrite (HC Hu) in H. destruct (g_label g id); discriminate.
Qed.

Section Level.
Variables k X : nat.
Hypothesis HX : k + 3 <= X.
Definition within (s : pst) : Prop := length (p_rest s) <= k.
Hypothesis Hbelow : forall s ts, length (p_rest s) < k -> fits (sequence_size ts + X) (NSeq ts) s.

Lemma rep_fuel : forall (sub : list event -> P (prospect * list event)) b,
  (forall temp s a s', sub temp s = (Ok a, s') -> exists o, ev b s o /\ answers (Ok a, s') temp o) ->
  (forall temp s, within s -> fst (sub temp s) <> OutOfFuel) ->
  forall mn mx fl i temp s, within s -> N.to_nat (mx - i) < fl \/ (mx = u32_max /\ length (p_rest s) + 1 < fl) ->
  fst (prep_loop sub fl mn mx i temp s) <> OutOfFuel.
Proof.
  intros sub b Hs Hf mn mx. induction fl as [|fl IH]; intros i temp s Hw Hn; [lia|]. cbn [prep_loop].
  destruct (N.ltb_spec i mx) as [Hi|Hi]; [|discriminate]. intros H.
  rewrite (pbind_ok pget _ s _ _ eq_refl) in H. apply pbind_oof in H as [H|((p & t) & s1 & E & H)]; [exact (Hf _ _ Hw H)|].
  destruct p as [|e].
  - destruct (Hs _ _ _ _ E) as (o & Ho & Ha). destruct o as [s' e'|l s' e'|[e'|]]; cbn in Ha; try (destruct Ha as (? & ?); discriminate); try (destruct Ha as (? & ? & ?); discriminate).
    injection Ha as -> ->. rewrite (pbind_ok ploc _ s' _ _ eq_refl) in H.
    destruct ((mx =? u32_max)%N && loc_eqb (p_at s') (p_at s))%bool eqn:El; [discriminate|].
    pose proof (ev_moved _ _ _ _ _ Ho) as Hm. cbn in Hm. pose proof (moved_len _ _ Hm) as Hl. revert H. apply IH; [unfold within in *; lia|].
    destruct Hn as [Hn|(-> & Hn)]; [left; lia|]. right. split; [reflexivity|].
    destruct (le_lt_dec (length (p_rest s)) (length (p_rest s'))) as [L|L]; [|lia]. rewrite (moved_same _ _ Hm L) in El. rewrite N.eqb_refl, loc_eqb_refl in El. discriminate.
  - destruct (N.ltb i mn); [discriminate|]. rewrite (pbind_ok (pput s) _ s1 tt s eq_refl) in H. discriminate.
Qed.
Lemma or_fuel : forall (sub : nat -> P (prospect * list event)) subs s, (forall a, In a subs -> fst (sub a s) <> OutOfFuel) ->
  fst (por_loop sub subs s) <> OutOfFuel.
Proof.
  intros sub subs s. induction subs as [|a subs IH]; intros Hf; [discriminate|]. cbn [por_loop]. intros H.
  rewrite (pbind_ok pget _ s _ _ eq_refl) in H. apply pbind_oof in H as [H|((p & t) & s1 & E & H)]; [exact (Hf a (or_introl eq_refl) H)|].
  destruct p as [|e]; [discriminate|]. rewrite (pbind_ok (pput s) _ s1 tt s eq_refl) in H. apply pbind_oof in H as [H|(o & s2 & _ & H)]; [|discriminate].
  revert H. apply IH. intros b Hb. apply Hf. right. exact Hb.
Qed.

(** ** Repetitions *)
Lemma rep_needs : forall mn mx b w l sym i next sub s evs F f, at_ i next (StRepetition mn mx sub) l sym -> code b sub None ->
  (forall s, within s -> fits (w + X) b s) -> within s ->
  (N.to_nat mx < F - 1 \/ mx = u32_max) -> S w + f <= F -> S w + X <= F ->
  (forall s' e, ev (NTimes mn mx 0 b) s (Match s' e) -> fst (run f next (evs ++ e) s') <> OutOfFuel) ->
  fst (run F (Some i) evs s) <> OutOfFuel.
Proof.
  intros mn mx b w l sym i next sub s evs [|F] f Hi Hc Hb Hw Hn H1 H2 Hk; [lia|]. rewrite (run_at g F i next _ l evs s sym Hi). cbv beta zeta iota. intros H.
  assert (Hsnd : forall temp s a s', run F (Some sub) temp s = (Ok a, s') -> exists o, ev b s o /\ answers (Ok a, s') temp o) by (intros; eapply sound; eauto).
  assert (Hfl : forall temp s, within s -> fst (run F (Some sub) temp s) <> OutOfFuel) by (intros; apply (Hb _ H0); [exact Hc|lia]).
  assert (Hr : fst (prep_loop (fun evs => run F (Some sub) evs) F mn mx 0%N [] s) <> OutOfFuel).
  { apply (rep_fuel _ b Hsnd Hfl); [exact Hw|]. unfold within in Hw. destruct Hn as [Hn|Hn]; [left; lia|right; split; [exact Hn|lia]]. }
  apply pbind_oof in H as [H|(o & s1 & E & H)]; [exact (Hr H)|]. destruct o as [e|temp]; [discriminate|].
  destruct (rep_sound rules cfg (fun evs => run F (Some sub) evs) b) with (f := F) (mn := mn) (mx := mx) (i := 0%N) (temp := @nil event) (s := s) as (o & Ho & Ha).
  - intros t s0 Hx. exact (sound_sub rules cfg g F (sound_run rules cfg g Hg F) b sub t s0 Hc Hx).
  - exact Hr.
  - rewrite E in Ha. destruct o as [s' e'|l' s' e'|[e'|]]; cbn in Ha; try (destruct Ha as (? & ?); discriminate); try (destruct Ha as (? & ? & ?); discriminate).
    + injection Ha as -> ->. revert H. apply (more_fuel f); [lia|]. apply Hk. exact Ho.
    + destruct Ha as (_ & ? & _ & Ha). discriminate.
Qed.

(** ** Rules tried from here *)
Definition bodies_fit (n : node) : Prop := forall r s, starts n r -> within s -> fits (X - 1) (NDefs (r_defs r)) s.
(** ** Nodes *)
Definition good (p : primary) : Prop := bodies_fit (NPrim p) -> forall s, within s -> needs X (primary_size p) (NPrim p) s.
Lemma good_factor : forall n p, good p -> bodies_fit (NFactor (Factor n p)) -> forall s, within s -> needs X (factor_size (Factor n p)) (NFactor (Factor n p)) s.
Proof.
  intros n p Hp Hb s Hw. assert (Hp' : forall s, within s -> needs X (primary_size p) (NPrim p) s).
  { apply Hp. intros r s0 Hr. apply Hb. constructor. exact Hr. }
  unfold factor_size. cbn [f_rep f_prim]. intros i next evs F f Hc H1 H2 Hk. inversion Hc; subst.
  - apply (Hp' s Hw i next evs F f); [assumption|lia|lia|]. intros s' e He. rewrite <- RunComplete.exit_factor. apply Hk. apply ev_factor_one. exact He.
  - match goal with K : CodeFacts.at_ _ _ _ _ _ _ |- _ => rename K into Hi end.
    apply (rep_needs n n (NPrim p) (primary_size p) _ _ i next sub s evs F f Hi); try assumption; try lia.
    + intros s0 Hs0. apply needs_fits; [lia|]. apply Hp'. exact Hs0.
    + intros s' e He. rewrite <- (RunComplete.exit_many n p next) by assumption. apply Hk. apply ev_factor_many; assumption.
Qed.
Lemma good_term : forall t, P_term good t -> bodies_fit (NTerm t) -> forall s, within s -> needs X (term_size t) (NTerm t) s.
Proof.
  intros [[n p] [[n' p']|]] (Hp & He) Hb s Hw; cbn in Hp, He.
  - assert (Hf : forall s, within s -> needs X (factor_size (Factor n p)) (NFactor (Factor n p)) s).
    { apply good_factor; [exact Hp|]. intros r s0 Hr. apply Hb. constructor. exact Hr. }
    assert (Hx : forall s, within s -> needs X (factor_size (Factor n' p')) (NFactor (Factor n' p')) s).
    { apply good_factor; [exact He|]. intros r s0 Hr. apply Hb. apply st_except. exact Hr. }
    unfold term_size. cbn [t_factor t_exc]. set (a := factor_size (Factor n p)) in *. set (b := factor_size (Factor n' p')) in *.
    intros i next evs [|F] f Hc H1 H2 Hk; [lia|]. inversion Hc; subst. match goal with K : CodeFacts.at_ _ _ _ _ _ _ |- _ => rename K into Hi end.
    rewrite RunComplete.exit_exc in Hk. rewrite (run_at g F i next _ _ evs s _ Hi). cbv beta zeta iota. unfold pexcept_scan. intros H.
    apply pbind_oof in H as [H|((p0 & t) & s1 & E & H)].
    + rewrite (pbind_ok pget _ s _ _ eq_refl) in H. apply pbind_oof in H as [H|((p0 & t) & s1 & E & H)].
      { revert H. apply (needs_fits X a (NFactor (Factor n p)) s); [lia|apply Hf; exact Hw|assumption|lia]. }
      destruct p0 as [|e]; [|rewrite (pbind_ok (pput s) _ s1 tt s eq_refl) in H; discriminate].
      rewrite (pbind_ok pget _ s1 _ _ eq_refl) in H. cbv zeta in H.
      destruct (sound _ (NFactor (Factor n p)) _ _ _ _ _ ltac:(eassumption) E) as (o & Ho & Ha). destruct o as [s' e'|l' s' e'|[e'|]]; cbn in Ha; try (destruct Ha as (? & ?); discriminate); try (destruct Ha as (? & ? & ?); discriminate).
      injection Ha as -> ->. destruct (ev_moved _ _ _ _ _ Ho) as (w & Hgo). rewrite (between_goes _ _ _ Hgo) in H.
      assert (Hl : length w <= k). { unfold within in Hw. destruct Hgo as (Hgo & _). rewrite Hgo, app_length in Hw. lia. }
      replace (Nat.ltb (length w) F) with true in H by (symmetry; apply Nat.ltb_lt; lia).
      match type of H with context [fst ?t] => match t with pbind ?m ?h ?st => destruct (fst (pbind m h st)) as [[|]|e2|p2|] eqn:Et end end; try discriminate.
      * rewrite (pbind_ok (pput s) _ s' tt s eq_refl) in H. apply pbind_oof in H as [H|(? & ? & _ & H)]; [exact (expected_fuel _ _ _ H)|discriminate].
      * apply pbind_oof in Et as [Et|((p2 & t2) & s2 & E2 & Et)].
        -- revert Et. apply (needs_fits X b (NFactor (Factor n' p')) (Pst w (p_at s))); [lia|apply Hx; exact Hl|assumption|lia].
        -- destruct p2; [rewrite peof_none in Et; discriminate|discriminate].
    + destruct p0 as [|e]; [|discriminate]. revert H. apply (more_fuel f); [lia|].
      rewrite (pbind_ok pget _ s _ _ eq_refl) in E. unfold pbind at 1 in E. destruct (run F (Some fa) [] s) as ([(p0 & t0)|e0|p0|] & s0) eqn:E0; try discriminate.
      destruct p0 as [|e0]; [|rewrite (pbind_ok (pput s) _ s0 tt s eq_refl) in E; discriminate].
      rewrite (pbind_ok pget _ s0 _ _ eq_refl) in E. cbv zeta in E.
      destruct (sound _ (NFactor (Factor n p)) _ _ _ _ _ ltac:(eassumption) E0) as (o & Ho & Ha). destruct o as [s' e'|l' s' e'|[e'|]]; cbn in Ha; try (destruct Ha as (? & ?); discriminate); try (destruct Ha as (? & ? & ?); discriminate).
      injection Ha as -> ->. destruct (ev_moved _ _ _ _ _ Ho) as (w & Hgo). rewrite (between_goes _ _ _ Hgo) in E.
      destruct (Nat.ltb (length w) F); [|discriminate].
      match type of E with context [fst ?t] => match t with pbind ?m ?h ?st => destruct (pbind m h st) as ([[|]|e2|p2|] & s3) eqn:Et end end; try discriminate.
      { cbn [fst] in E. rewrite (pbind_ok (pput s) _ s' tt s eq_refl) in E. unfold pbind in E. rewrite pexpected_none in E. discriminate. }
      cbn [fst] in E. injection E as <- <-. apply Hk.
      unfold pbind at 1 in Et. destruct (run F (Some ex) [] (Pst w (p_at s))) as ([(p2 & t2)|e2|p2|] & s2) eqn:E2; try discriminate.
      destruct (sound _ (NFactor (Factor n' p')) _ _ _ _ _ ltac:(eassumption) E2) as (o & Ho2 & Ha). destruct o as [s4 e4|l4 s4 e4|[e4|]]; cbn in Ha; try (destruct Ha as (? & ?); discriminate); try (destruct Ha as (? & ? & ?); discriminate).
      * injection Ha as -> -> ->. rewrite peof_none in Et. eapply ev_term_kept; [exact Ho|exact Hgo|exact Ho2|]. left. exists s4, e4. split; [reflexivity|]. destruct (p_rest s4); [discriminate|discriminate].
      * eapply ev_term_kept; [exact Ho|exact Hgo|exact Ho2|]. right. eauto.
  - assert (Hf : forall s, within s -> needs X (factor_size (Factor n p)) (NFactor (Factor n p)) s).
    { apply good_factor; [exact Hp|]. intros r s0 Hr. apply Hb. constructor. exact Hr. }
    unfold term_size. cbn [t_factor t_exc]. intros i next evs F f Hc H1 H2 Hk. inversion Hc; subst.
    apply (Hf s Hw i next evs F f); [assumption|lia|lia|]. intros s' e He'. rewrite <- RunComplete.exit_term. apply Hk. apply ev_term_plain. exact He'.
Qed.
Lemma good_seq : forall ts, Forall (P_term good) ts -> bodies_fit (NSeq ts) -> forall s, within s -> fits (sequence_size ts + X) (NSeq ts) s.
Proof.
  intros ts HF. induction HF as [|t ts Ht HF IH]; intros Hb s Hw i evs F Hc Hle; [inversion Hc|]. cbn [sequence_size] in Hle.
  assert (Ht' : needs X (term_size t) (NTerm t) s).
  { apply good_term; [exact Ht| |exact Hw]. intros r s0 Hr. apply Hb. apply st_seq. exact Hr. }
  inversion Hc; subst.
  - apply (needs_fits X (term_size t) (NTerm t) s); [lia|exact Ht'|assumption|lia].
  - apply (Ht' i (Some j) evs F (F - term_size t)); [assumption|lia|lia|]. intros s' e He. cbn [exit].
    destruct (bare_group t) as [d|] eqn:Eb. { destruct (F - term_size t) eqn:E; [lia|discriminate]. }
    pose proof (ev_moved _ _ _ _ _ He) as Hm. cbn in Hm. destruct (le_lt_dec k (length (p_rest s'))) as [L|L].
    + assert (s' = s) by (apply moved_same; [exact Hm|unfold within in Hw; lia]). subst s'.
      apply IH; [|exact Hw|assumption|lia]. intros r s0 Hr. apply Hb. apply st_after; [exact Eb| |exact Hr]. exact (ev_rests _ _ _ _ _ He eq_refl).
    + apply (Hbelow s' (t2 :: ts0) L); [assumption|lia].
Qed.
Lemma codes_in : forall ds subs a, codes cfg (g_instrs g) ds subs -> In a subs -> exists d, In d ds /\ code (NSeq d) a None.
Proof.
  intros ds subs a H. induction H as [|d ds i is Hd Hds IH]; [intros []|]. intros [<-|Ha]; [exists d; split; [left; reflexivity|exact Hd]|].
  destruct (IH Ha) as (d' & Hin & Hd'). exists d'. split; [right; exact Hin|exact Hd'].
Qed.
Lemma in_size : forall d ds, In d ds -> S (sequence_size d) <= defs_size ds.
Proof.
  intros d ds. induction ds as [|d' ds IH]; [intros []|]. intros [->|H].
  - cbn. assert (forall ds, 1 <= defs_size ds) by (induction ds0; cbn; lia). pose proof (H ds). lia.
  - cbn. specialize (IH H). lia.
Qed.
Lemma good_defs : forall d, Forall (Forall (P_term good)) d -> bodies_fit (NDefs d) -> forall s, within s -> fits (defs_size d + X) (NDefs d) s.
Proof.
  intros d HF Hb s Hw.
  assert (Hd : forall ts, In ts d -> fits (sequence_size ts + X) (NSeq ts) s).
  { intros ts Hin. apply good_seq; [rewrite Forall_forall in HF; apply HF; exact Hin| |exact Hw]. intros r s0 Hr. apply Hb. eapply st_defs; eauto. }
  intros i evs F Hc Hle. inversion Hc; subst.
  - pose proof (in_size ts [ts] (or_introl eq_refl)). apply (Hd ts (or_introl eq_refl)); [assumption|lia].
  - destruct F as [|F]; [cbn in Hle; lia|]. match goal with K : CodeFacts.at_ _ _ _ _ _ _ |- _ => rewrite (run_at g F i _ _ _ evs s _ K) end. discriminate.
  - destruct F as [|F]; [lia|]. match goal with K : CodeFacts.at_ _ _ _ _ _ _ |- _ => rewrite (run_at g F i _ _ _ evs s _ K) end. cbv beta zeta iota. intros H.
    apply pbind_oof in H as [H|(o & s1 & E & H)].
    + revert H. apply or_fuel. intros a Ha. destruct (codes_in _ _ _ ltac:(eassumption) Ha) as (ts & Hin & Hts). pose proof (in_size _ _ Hin).
      apply (Hd ts Hin); [exact Hts|lia].
    + destruct o as [es|temp]; [|destruct F; [pose proof (in_size d1 (d1 :: d2 :: ds) (or_introl eq_refl)); lia|discriminate]].
      destruct (pick_error (rev es)); [|discriminate]. rewrite (pbind_ok ploc _ s1 _ _ eq_refl) in H. destruct (loc_eqb _ _); [|discriminate].
      apply pbind_oof in H as [H|(? & ? & _ & H)]; [exact (expected_fuel _ _ _ H)|discriminate].
Qed.
Lemma prim_defs : forall d l, primary_size (PGrouped l d) = 3 + defs_size d /\ primary_size (POptional l d) = 3 + defs_size d /\ primary_size (PRepeated l d) = 3 + defs_size d.
Proof. intros d l. repeat split; reflexivity. Qed.
Lemma good_prim : forall p, good p.
Proof.
  induction p as [l d IH|l d IH|l d IH|l id|l w|l c|l] using primary_nested; intros Hb s Hw.
  - assert (Hd : forall s, within s -> fits (defs_size d + X) (NDefs d) s).
    { apply good_defs; [exact IH|]. intros r s0 Hr. apply Hb. constructor. exact Hr. }
    rewrite (proj1 (proj2 (prim_defs d l))). intros i next evs F f Hc H1 H2 Hk. inversion Hc; subst. match goal with K : CodeFacts.at_ _ _ _ _ _ _ |- _ => rename K into Hi end.
    apply (rep_needs 0 1 (NDefs d) (defs_size d) _ _ i next sub s evs F f Hi); try assumption; try lia.
    intros s' e He. apply (Hk s' e). apply ev_optional. exact He.
  - assert (Hd : forall s, within s -> fits (defs_size d + X) (NDefs d) s).
    { apply good_defs; [exact IH|]. intros r s0 Hr. apply Hb. constructor. exact Hr. }
    rewrite (proj2 (proj2 (prim_defs d l))). intros i next evs F f Hc H1 H2 Hk. inversion Hc; subst. match goal with K : CodeFacts.at_ _ _ _ _ _ _ |- _ => rename K into Hi end.
    apply (rep_needs 0 u32_max (NDefs d) (defs_size d) _ _ i next sub s evs F f Hi); try assumption; try lia.
    intros s' e He. apply (Hk s' e). apply ev_repeated. exact He.
  - assert (Hd : forall s, within s -> fits (defs_size d + X) (NDefs d) s).
    { apply good_defs; [exact IH|]. intros r s0 Hr. apply Hb. constructor. exact Hr. }
    rewrite (proj1 (prim_defs d l)). intros i next evs F f Hc H1 H2 Hk. inversion Hc; subst. apply (Hd s Hw); [assumption|lia].
  - intros i next evs F f Hc H1 H2 Hk. inversion Hc; subst. match goal with K : CodeFacts.at_ _ _ _ _ _ _ |- _ => rename K into Hi end. cbn [primary_size] in *.
    apply (alias_needs l id _ i next s evs F f (X - 1) Hi); [|lia|lia|].
    + intros r Hr. apply Hb; [constructor; exact Hr|exact Hw].
    + intros s' e He. apply (Hk s' e). apply ev_meta. exact He.
  - intros i next evs [|F] f Hc H1 H2 Hk; [lia|]. inversion Hc; subst. match goal with K : CodeFacts.at_ _ _ _ _ _ _ |- _ => rename K into Hi end. cbn [primary_size] in *.
    rewrite (run_at g F i _ _ _ evs s _ Hi). cbv beta zeta iota. unfold pterminal_step.
    destruct (pprefix_none w s) as [(s' & A & B)|(A & B)].
    + erewrite pbind_ok. 2:{ rewrite (pbind_ok _ _ _ _ _ B). rewrite (pbind_ok ploc _ s _ _ eq_refl). rewrite (pbind_ok (pskip _) _ s tt _ eq_refl). reflexivity. }
      cbn [i_def]. rewrite (goes_move _ _ _ A). apply (more_fuel f); [lia|]. apply (Hk s'). apply ev_terminal. exact A.
    + intros H. apply pbind_oof in H as [H|((p & t) & s1 & E & H)].
      * rewrite (pbind_ok _ _ _ _ _ B) in H. apply pbind_oof in H as [H|(? & ? & _ & H)]; [exact (expected_fuel _ _ _ H)|discriminate].
      * rewrite (pbind_ok _ _ _ _ _ B) in E. unfold pbind in E. rewrite pexpected_none in E. injection E as <- <- <-. discriminate.
  - intros i next evs [|F] f Hc H1 H2 Hk; [lia|]. inversion Hc as [| |? ? ? ? Hi| | | | | | | | | | | | |]; subst. cbn [primary_size] in *.
    rewrite (run_at g F i _ _ _ evs s _ Hi). cbv beta zeta iota. unfold pspecial_step. cbn [i_def i_symbol].
    destruct (scan_none F (cfg l c) l s) as [(A & B)|(r & A & B)]; [unfold within in Hw; lia|].
    destruct (pspecial_scan None F (cfg l c) l s) as (x & s1) eqn:Es. destruct x as [[evts| |id]|er|pn|]; cbn in B; try contradiction; subst r.
    + erewrite pbind_ok. 2:{ rewrite (pbind_ok pget _ s _ _ eq_refl). rewrite (pbind_ok _ _ _ _ _ Es). reflexivity. }
      apply (more_fuel f); [lia|]. apply (Hk s1). apply ev_special. exact A.
    + erewrite pbind_ok. 2:{ rewrite (pbind_ok pget _ s _ _ eq_refl). rewrite (pbind_ok _ _ _ _ _ Es).
        rewrite (pbind_ok (pput s) _ s1 tt s eq_refl). rewrite (pbind_ok _ _ _ _ _ (pexpected_none g (Some i) s)). reflexivity. } discriminate.
    + assert (Hm : within s1). { pose proof (moved_len _ _ (scanned_moved _ _ _ _ A)). unfold within in *. lia. }
      intros H. apply pbind_oof in H as [H|((p & t) & s2 & E & H)].
      * rewrite (pbind_ok pget _ s _ _ eq_refl) in H. rewrite (pbind_ok _ _ _ _ _ Es) in H. destruct (g_label g id) as [a|] eqn:Hla.
        2:{ rewrite (pbind_ok (pput s) _ s1 tt s eq_refl) in H. rewrite (pbind_ok ploc _ s _ _ eq_refl) in H. discriminate. }
        apply pbind_oof in H as [H|((? & ?) & ? & _ & H)]; [|discriminate]. revert H.
        destruct (Hg id) as (HA & HB & _ & HD). destruct (defined_dec rules id) as [(r & Hr)|Hu].
        -- destruct (HA r Hr) as (a' & Hla' & Hca & _). rewrite Hla in Hla'. injection Hla' as <-. apply (Hb r s1); [eapply st_forward; eauto|exact Hm|exact Hca|lia].
        -- destruct (dollar_dec rules id) as [(r & Hin & Hr)|Hd]; [|rewrite (HD Hu Hd) in Hla; discriminate].
           destruct (HB r Hin Hr) as (a' & Hla' & Hat). rewrite Hla in Hla'. injection Hla' as <-.
           apply (alias_needs (r_loc r) (r_id r) _ a None s1 evs F 1 (X - 1) Hat); [|lia|lia|discriminate].
           intros r2 Hr2. apply Hb; [eapply st_dollar; eauto|exact Hm].
      * destruct p; [|discriminate]. revert H. apply (more_fuel f); [lia|].
        rewrite (pbind_ok pget _ s _ _ eq_refl) in E. rewrite (pbind_ok _ _ _ _ _ Es) in E. destruct (g_label g id) as [a|] eqn:Hla.
        2:{ rewrite (pbind_ok (pput s) _ s1 tt s eq_refl) in E. rewrite (pbind_ok ploc _ s _ _ eq_refl) in E. discriminate. }
        unfold pbind in E. pose proof (fwd_sound rules cfg g Hg F id a evs s1 (fun f' _ => sound_run rules cfg g Hg f') Hla) as Hs. destruct (run F (Some a) evs s1) as ([(p & t')|e|p|] & s3) eqn:Er; try discriminate.
        injection E as <- <-. destruct Hs as (o & Ho & Ha); [discriminate|].
        destruct o as [s' e|l' s' e|[e|]]; cbn in Ha; try (destruct Ha as (? & ?); discriminate); try (destruct Ha as (? & ? & ?); discriminate).
        -- injection Ha as -> -> ->. apply (Hk s' e). eapply ev_forward; eauto.
        -- destruct Ha as (er & Hl & Ha). injection Ha as -> -> ->. apply (Hk s' e). eapply ev_forward_no; eauto.
    + erewrite pbind_err. 2:{ rewrite (pbind_ok pget _ s _ _ eq_refl). apply (pbind_err _ _ _ _ _ Es). } discriminate.
  - intros i next evs [|F] f Hc H1 H2 Hk; [lia|]. inversion Hc; subst. match goal with K : CodeFacts.at_ _ _ _ _ _ _ |- _ => rename K into Hi end. cbn [primary_size] in *.
    rewrite (run_at g F i _ _ _ evs s _ Hi). cbv beta zeta iota. apply (more_fuel f); [lia|]. rewrite <- (app_nil_r evs). apply (Hk s []). apply ev_empty.
Qed.
Lemma all_good : forall d, Forall (Forall (P_term good)) d.
Proof.
  intros d. rewrite Forall_forall. intros ts _. rewrite Forall_forall. intros t _. split; [apply good_prim|]. unfold P_exc. destruct (t_exc t); [apply good_prim|exact I].
Qed.
End Level.

(** ** All levels *)
Hypothesis Hleft : forall r, In r rules -> ~ left_recursive rules cfg r.
Lemma tries_chain : forall r, chain rule (tries rules cfg) (S (length rules)) r.
Proof.
  intros r. apply (chain_all rule (tries rules cfg) rules) with (seen := []).
  - intros x y (H1 & H2). split; [exact H1|eapply starts_in; exact H2].
  - intros x H. apply (Hleft x); [|exact H]. apply clos_trans_t1n in H. inversion H as [y Hy|y z Hy]; subst; exact (proj1 Hy).
  - cbn. lia.
  - constructor.
  - intros x [].
  - intros y [].
Qed.
Lemma rule_size : forall r, In r rules -> defs_size (r_defs r) <= syntax_size rules.
Proof.
  intros r. generalize rules. induction rules0 as [|r' rs IH]; [intros []|]. intros [->|H]; cbn; [lia|]. specialize (IH H). lia.
Qed.
Let Z := S (syntax_size rules).
Let D := S (length rules).
Definition level (k : nat) : nat := 3 + k * (D * Z).
Lemma body_level : forall k, (forall s ts, length (p_rest s) < k -> fits (sequence_size ts + level k) (NSeq ts) s) ->
  forall d r s, chain rule (tries rules cfg) d r -> In r rules -> length (p_rest s) <= k -> fits (level k + d * Z - 1) (NDefs (r_defs r)) s.
Proof.
  intros k Hbelow. induction d as [|d IH]; intros r s Hch Hin Hs; [contradiction|].
  assert (HX : k + 3 <= level k + d * Z) by (unfold level, D, Z; nia).
  apply (fits_more (defs_size (r_defs r) + (level k + d * Z))).
  { pose proof (rule_size r Hin). unfold Z in *. cbn [Nat.mul]. lia. }
  apply (good_defs k (level k + d * Z) HX).
  - intros s0 ts Hl. apply (fits_more (sequence_size ts + level k)); [lia|]. apply Hbelow. exact Hl.
  - apply all_good; [exact HX|]. intros s0 ts Hl. apply (fits_more (sequence_size ts + level k)); [lia|]. apply Hbelow. exact Hl.
  - intros r' s' Hr' Hs'. apply IH; [apply Hch; split; assumption|eapply starts_in; exact Hr'|exact Hs'].
  - exact Hs.
Qed.
Lemma below_level : forall k s ts, length (p_rest s) < k -> fits (sequence_size ts + level k) (NSeq ts) s.
Proof.
  induction k as [|k IH]; intros s ts Hs; [lia|]. assert (HX : k + 3 <= level (S k)) by (unfold level, D, Z; nia).
  assert (HL : level k + D * Z = level (S k)) by (unfold level; lia).
  assert (Hbelow : forall s ts, length (p_rest s) < k -> fits (sequence_size ts + level (S k)) (NSeq ts) s).
  { intros s0 ts0 H0. apply (fits_more (sequence_size ts0 + level k)); [lia|]. apply IH. exact H0. }
  apply (good_seq k (level (S k)) HX Hbelow).
  - exact (Forall_inv (all_good k (level (S k)) HX Hbelow [ts])).
  - intros r s' Hr Hs'. rewrite <- HL. apply body_level; [exact IH|apply tries_chain|eapply starts_in; exact Hr|exact Hs'].
  - unfold within. lia.
Qed.
Lemma rule_level : forall r s, In r rules -> fits (level (S (length (p_rest s))) - 1) (NDefs (r_defs r)) s.
Proof.
  intros r s Hin. replace (level (S (length (p_rest s)))) with (level (length (p_rest s)) + D * Z) by (unfold level; lia).
  apply body_level; [apply below_level|apply tries_chain|exact Hin|lia].
Qed.
Lemma entry_level : forall i r evs s F, at_ i None (StAlias (r_id r)) (r_loc r) (r_id r) -> depth_bound rules (length (p_rest s)) <= F ->
  fst (run F (Some i) evs s) <> OutOfFuel.
Proof.
  intros i r evs s F Hi HF. change (depth_bound rules (length (p_rest s))) with (level (S (length (p_rest s)))) in HF.
  apply (alias_needs (r_loc r) (r_id r) _ i None s evs F 1 (level (S (length (p_rest s))) - 1) Hi).
  - intros r' Hr'. apply rule_level. exact (proj1 Hr').
  - unfold level in HF. lia.
  - unfold level in *. lia.
  - discriminate.
Qed.
End Depth.
Lemma parse_linear : forall rs cfg g id m debug rd, parser_for rs cfg g id m -> reader rd -> ending_of rd = None ->
  (forall r, In r rs -> ~ left_recursive rs cfg r) ->
  forall fuel, depth_bound rs (length (unread rd)) <= fuel -> fst (parser_parse debug g fuel m rd) <> OutOfFuel.
Proof.
  intros rs cfg g id m debug rd Hp Hr He Hl fuel HF. destruct (parser_rule _ _ _ _ _ Hp) as (r & Hn & Hid & Hat).
  destruct (parse_reader debug g fuel m rd Hr) as (A & _). rewrite A, He. unfold pmachine_parse. intros H.
  apply pbind_oof in H as [H|((p & evs) & s1 & _ & H)].
  - revert H. apply (entry_level rs cfg g (parser_faithful _ _ _ _ _ Hp) Hl (mc_entry m) r [] (stand rd) fuel Hat HF).
  - destruct p; [|discriminate]. rewrite (pbind_ok _ _ _ _ _ (peof_none s1)) in H. destruct (p_rest s1).
    + destruct (debug && negb (removed_labels_agree (List.tl evs)))%bool; discriminate.
    + apply pbind_oof in H as [H|(? & ? & _ & H)]; [exact (expected_fuel _ _ _ H)|discriminate].
Qed.
