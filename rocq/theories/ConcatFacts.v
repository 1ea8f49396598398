(** Texts that follow a terminator are read on their own. *)
From Coq Require Import String List NArith Arith Bool Lia.
From Verif Require Import Base Ident Tokenizer Ast Lex SpecText TextFacts SpecTok TokFacts TokRun
  SpecLex LexRun SpecGram GramFacts GramText SpecTree TreeFacts ShowFacts SpecConcat.
Import ListNotations.
Open Scope nat_scope.

(** ** Moving token runs and trees *)
Section Move.
Variable P : location -> Prop.
Variable f : location -> location.
Hypothesis Pstep : forall l c, P l -> P (loc_push l c) /\ f (loc_push l c) = loc_push (f l) c.
Definition mv (t : token) : token := relocate (f (tok_loc t)) t.

Lemma P_push : forall s l, P l -> P (loc_push_str l s) /\ f (loc_push_str l s) = loc_push_str (f l) s.
Proof.
  induction s as [|c s IH]; intros l Hl; [auto|]. cbn. destruct (Pstep l c Hl) as (H & E).
  destruct (IH _ H) as (H' & E'). split; [exact H'|]. unfold loc_push_str in E'. rewrite E', E. reflexivity.
Qed.
Lemma lexes_move : forall l s ts, lexes l s ts -> P l -> lexes (f l) s (map mv ts).
Proof.
  intros l s ts H. induction H as [l|l l' t rest ts Hv Hl Hf Hr Hlex IH]; intros HP; [constructor|].
  cbn [map]. destruct (relocate_spec (f (tok_loc t)) t) as (R1 & R2 & R3 & R4 & R5). fold (mv t) in *.
  rewrite <- R2. apply reaches_push in Hr. subst l'. destruct (P_push (tok_text t) l HP) as (HP' & E).
  apply lexes_tok with (l' := f (loc_push_str l (tok_text t))).
  - apply R3. exact Hv.
  - rewrite R1, Hl. reflexivity.
  - apply R4. exact Hf.
  - apply reaches_push. rewrite R2. exact E.
  - apply IH. exact HP'.
Qed.

Lemma mv_text : forall w, flat_map tok_text (map mv w) = flat_map tok_text w.
Proof.
  induction w as [|t w IH]; [reflexivity|]. cbn [map flat_map]. rewrite IH. unfold mv.
  destruct (relocate_spec (f (tok_loc t)) t) as (_ & -> & _). reflexivity.
Qed.
Lemma trivia_move : forall w, all_trivia w -> all_trivia (map mv w).
Proof. intros w H. apply Forall_map. eapply Forall_impl; [|exact H]. intros [] Ht; exact Ht. Qed.
Lemma ident_move : forall w l id, g_ident w l id -> g_ident (map mv w) (f l) id.
Proof.
  intros w l id H. destruct H as [l s w ws Hw Hl Hs]. cbn [map]. change (mv (TMeta l s)) with (TMeta (f l) s).
  constructor.
  - apply Forall_map. eapply Forall_impl; [|exact Hw]. intros [] Ht; exact Ht.
  - destruct Hl as [->|(w' & l' & s' & ->)]; [left; reflexivity|right]. rewrite map_app.
    exists (map mv w'), (f l'), s'. reflexivity.
  - change (TMeta (f l) s :: map mv w) with (map mv (TMeta l s :: w)). rewrite mv_text. exact Hs.
Qed.
Lemma all_move :
  (forall w p, g_primary w p -> g_primary (map mv w) (reloc_primary f f p)) /\
  (forall w x, g_factor w x -> g_factor (map mv w) (reloc_factor f f x)) /\
  (forall w t, g_term w t -> g_term (map mv w) (reloc_term f f t)) /\
  (forall w s, g_single w s -> g_single (map mv w) (reloc_single f f s)) /\
  (forall w d, g_defs w d -> g_defs (map mv w) (reloc_defs f f d)).
Proof.
  assert (D : forall d : definition_list, map (map (fun x : term_ primary =>
      {| t_factor := {| f_rep := f_rep (t_factor x); f_prim := reloc_primary f f (f_prim (t_factor x)) |};
         t_exc := match t_exc x with
                  | Some e => Some {| f_rep := f_rep e; f_prim := reloc_primary f f (f_prim e) |}
                  | None => None
                  end |})) d = reloc_defs f f d).
  { intros d. apply map_ext. intros s. apply map_ext. intros t. destruct t as [x [e|]]; reflexivity. }
  apply g_all_mut.
  - intros l s w d l' s' _ IH. cbn [reloc_primary]. rewrite D. cbn [map]. rewrite map_app. constructor. exact IH.
  - intros l s w d l' s' _ IH. cbn [reloc_primary]. rewrite D. cbn [map]. rewrite map_app. constructor. exact IH.
  - intros l w d l' _ IH. cbn [reloc_primary]. rewrite D. cbn [map]. rewrite map_app. constructor. exact IH.
  - intros w l id H. constructor. apply ident_move. exact H.
  - intros l s q. constructor.
  - intros l s. constructor.
  - intros l. constructor.
  - intros tr1 w tr2 p H1 _ IH H2. rewrite !map_app. constructor; try apply trivia_move; assumption.
  - intros tr1 l s tr2 l' tr3 w tr4 p H1 H2 H3 H4 Hn _ IH. rewrite !map_app. cbn [map]. rewrite !map_app. cbn [map].
    rewrite !map_app. constructor; try apply trivia_move; assumption.
  - intros w x _ IH. constructor. exact IH.
  - intros w x l w' e _ IH _ IH'. rewrite map_app. constructor; assumption.
  - intros w t _ IH. constructor. exact IH.
  - intros w t l w' ts _ IH _ IH'. rewrite map_app. constructor; assumption.
  - intros w s _ IH. constructor. exact IH.
  - intros w s l c w' ds _ IH _ IH'. rewrite map_app. constructor; assumption.
Qed.
Lemma run_move : forall w o, g_run w o -> g_run (map mv w) (option_map (reloc_rule f f) o).
Proof.
  intros w o H. destruct H as [tr1 w l id tr2 l' body d t H1 Hi H2 Hd Ht|tr t H1 Ht].
  - rewrite !map_app. cbn [map]. rewrite map_app. cbn [option_map map]. unfold reloc_rule. cbn [r_loc r_id r_defs].
    constructor; try apply trivia_move; try assumption; [apply ident_move; exact Hi|apply all_move; exact Hd|destruct t; exact Ht].
  - rewrite map_app. constructor; [apply trivia_move; exact H1|destruct t; exact Ht].
Qed.
Lemma syntax_move : forall ts rs, g_syntax ts rs -> g_syntax (map mv ts) (map (reloc_rule f f) rs).
Proof.
  intros ts rs H. induction H as [|w o ts rs Hr _ IH]; [constructor|]. rewrite !map_app.
  replace (map (reloc_rule f f) (opt_list o)) with (opt_list (option_map (reloc_rule f f) o)) by (destruct o; reflexivity).
  constructor; [apply run_move; exact Hr|exact IH].
Qed.
End Move.

(** ** Places after a text *)
Definition started (l : location) : Prop := (1 <= l_lines l)%N /\ (1 <= l_columns l)%N.
Lemma after_step : forall o l c, started l ->
  started (loc_push l c) /\ after o (loc_push l c) = loc_push (after o l) c.
Proof.
  intros o [n a b] c (H1 & H2). cbn in H1, H2. unfold loc_push, started, after.
  destruct (N.eqb_spec c c_lf); cbn [l_lines l_columns l_name].
  - split; [lia|]. destruct (N.eqb_spec (a + 1) 1); [lia|]. f_equal. lia.
  - split; [lia|]. destruct (N.eqb_spec a 1); f_equal; lia.
Qed.
Lemma after_new : forall o n, after o (loc_new n) = o.
Proof. intros [m a b] n. unfold after, loc_new. cbn. f_equal; lia. Qed.
Lemma started_new : forall n, started (loc_new n).
Proof. intros n. unfold started, loc_new. cbn. lia. Qed.
Lemma after_reaches : forall o n v l, reaches (loc_new n) v l -> reaches o v (after o l).
Proof.
  intros o n v l H. apply reaches_push in H. subst l. apply reaches_push.
  rewrite (proj2 (P_push started (after o) (after_step o) v _ (started_new n))), after_new. reflexivity.
Qed.
(** The way back. *)
Definition since (o l : location) : location :=
  Loc (l_name o) (l_lines l - l_lines o + 1)
    (if N.eqb (l_lines l) (l_lines o) then (l_columns l - l_columns o + 1)%N else l_columns l).
Definition behind (o l : location) : Prop :=
  (l_lines o <= l_lines l)%N /\ (l_lines l = l_lines o -> (l_columns o <= l_columns l)%N).
Lemma since_step : forall o l c, behind o l ->
  behind o (loc_push l c) /\ since o (loc_push l c) = loc_push (since o l) c.
Proof.
  intros [m x y] [n a b] c (H1 & H2). cbn in H1, H2. unfold loc_push, behind, since.
  destruct (N.eqb_spec c c_lf); cbn [l_lines l_columns l_name].
  - split; [lia|]. destruct (N.eqb_spec (a + 1) x); [lia|]. f_equal. lia.
  - split; [lia|]. destruct (N.eqb_spec a x); f_equal; lia.
Qed.

(** ** Cutting after a terminator *)
Lemma ends_terminator : forall t tc u, valid_tok t -> tc = c_semi \/ tc = c_dot ->
  tok_text t = u ++ [tc] -> exists l, t = TTerminator l tc.
Proof.
  intros t tc u Hv Hc E.
  assert (HL : forall s, s = u ++ [tc] -> In tc s) by (intros s ->; apply in_or_app; right; left; reflexivity).
  assert (one : forall x, [x] = u ++ [tc] -> x = tc).
  { intros x. destruct u as [|y [|z u]]; cbn; congruence. }
  assert (two : forall x y, [x; y] = u ++ [tc] -> y = tc).
  { intros x y. destruct u as [|a [|b [|z u]]]; cbn; congruence. }
  assert (lst : forall a x, a ++ [x] = u ++ [tc] -> x = tc) by (intros a x E'; apply app_inj_tail in E' as (_ & E'); exact E').
  destruct t; cbn [tok_text valid_tok] in *; try (apply one in E; subst; exfalso; destruct Hc; discriminate).
  - apply one in E. subst. exfalso. destruct Hv as [-> | [-> | ->]]; destruct Hc; discriminate.
  - apply one in E. subst. eauto.
  - exfalso. destruct Hv as [->| ->]; [apply one in E|apply two in E]; subst; destruct Hc; discriminate.
  - exfalso. destruct Hv as [->| ->]; [apply one in E|apply two in E]; subst; destruct Hc; discriminate.
  - exfalso. destruct Hv as [->| ->]; [apply one in E|apply two in E]; subst; destruct Hc; discriminate.
  - exfalso. destruct Hv as [->| ->]; [apply one in E|apply two in E]; subst; destruct Hc; discriminate.
  - destruct Hv.
  - exfalso. apply HL in E. destruct Hv as (c & r & -> & Hl & HF). rewrite Forall_forall in HF.
    destruct E as [<-|E]; [|apply HF in E]; unfold letter, digit in *; destruct Hc; subst; lia.
  - exfalso. change (q :: s ++ [q]) with ((q :: s) ++ [q]) in E. apply lst in E. subst.
    destruct Hv as ([->| ->] & _); destruct Hc; discriminate.
  - exfalso. apply HL in E. destruct Hv as (_ & HF). rewrite Forall_forall in HF. apply HF in E.
    unfold digit in E. destruct Hc; subst; lia.
  - exfalso. assert (E' : ([c_lpar; c_star] ++ s ++ [c_star]) ++ [c_rpar] = u ++ [tc]).
    { rewrite <- E, <- !app_assoc. reflexivity. } apply lst in E'. destruct Hc; subst; discriminate.
  - exfalso. change (c_quest :: s ++ [c_quest]) with ((c_quest :: s) ++ [c_quest]) in E. apply lst in E.
    destruct Hc; subst; discriminate.
  - exfalso. apply HL in E. destruct Hv as (_ & HF). rewrite Forall_forall in HF. apply HF in E.
    unfold gap_char in E. destruct Hc; subst; repeat destruct E as [E|E]; discriminate.
Qed.
Lemma lexes_terminated : forall l u tc ts, lexes l (u ++ [tc]) ts -> tc = c_semi \/ tc = c_dot ->
  exists ts0 lt l', ts = ts0 ++ [TTerminator lt tc; TEOF l'].
Proof.
  intros l u tc ts H Hc. pose proof (lexes_text _ _ _ H) as E. apply lexes_shape in H as (ts0 & l' & -> & HF).
  destruct (rev ts0) as [|t r] eqn:Er.
  - assert (ts0 = []) as -> by (rewrite <- (rev_involutive ts0), Er; reflexivity).
    cbn in E. destruct u; discriminate.
  - assert (ts0 = rev r ++ [t]) as -> by (rewrite <- (rev_involutive ts0), Er; reflexivity).
    apply Forall_app in HF as (_ & HF). inversion HF as [|x y Hv _]; subst.
    rewrite !flat_map_app in E. cbn in E. rewrite !app_nil_r in E.
    pose proof (text_pos _ Hv) as Hp. destruct (rev (tok_text t)) as [|x y] eqn:Ex.
    { apply (f_equal (@length _)) in Ex. rewrite rev_length in Ex. cbn in Ex. lia. }
    assert (Et : tok_text t = rev y ++ [x]) by (rewrite <- (rev_involutive (tok_text t)), Ex; reflexivity).
    rewrite Et, app_assoc in E. apply app_inj_tail in E as (_ & ->).
    destruct (ends_terminator t tc _ Hv Hc Et) as (lt & ->). exists (rev r), lt, l'. rewrite <- app_assoc. reflexivity.
Qed.

Lemma lexes_append : forall l s ts, lexes l s ts -> forall ts0 lt tc l' s2 ts2,
  ts = ts0 ++ [TTerminator lt tc; TEOF l'] -> lexes l' s2 ts2 ->
  lexes l (s ++ s2) (ts0 ++ TTerminator lt tc :: ts2).
Proof.
  intros l s ts H. induction H as [l|l l1 t rest ts Hv Hl Hf Hr Hlex IH]; intros ts0 lt tc l' s2 ts2 E H2.
  - destruct ts0 as [|? [|? ?]]; discriminate.
  - destruct ts0 as [|a ts0]; cbn [app] in E |- *.
    + injection E as -> E. subst ts. inversion Hlex as [l0 E1 E2|l0 l2 t2 rest2 ts' Hv2 Hl2 Hf2 Hr2 Hlex2 E1 E2]; subst.
      * rewrite app_nil_r. econstructor; [exact Hv|reflexivity|destruct s2; exact I|exact Hr|exact H2].
      * destruct Hv2.
    + injection E as -> E. rewrite <- app_assoc. econstructor; [exact Hv|exact Hl| |exact Hr|eapply IH; eassumption].
      destruct rest as [|c rest]; [|exact Hf]. exfalso.
      inversion Hlex as [l0 E1 E2|l0 l2 t2 rest2 ts' Hv2 Hl2 Hf2 Hr2 Hlex2 E1 E2]; subst.
      * destruct ts0 as [|? [|? ?]]; discriminate.
      * pose proof (text_pos _ Hv2). destruct (tok_text t2); [cbn in *; lia|discriminate].
Qed.
Lemma lexes_cut_first : forall l t rest ts, valid_tok t -> tok_loc t = l -> follows t (hd_error rest) -> rest <> [] ->
  lexes l (tok_text t ++ rest) ts -> exists ts', ts = t :: ts' /\ lexes (loc_push_str l (tok_text t)) rest ts'.
Proof.
  intros l t rest ts Hv Hl Hf Hn H.
  destruct (read_next_complete l t rest Hv Hl Hf) as [E|(E & _)]; [|contradiction].
  inversion H as [l0 E1 E2|l0 l2 t2 rest2 ts' Hv2 Hl2 Hf2 Hr2 Hlex2 E1 E2].
  - destruct (tok_text t); cbn in *; [congruence|discriminate].
  - subst l0 ts. destruct (read_next_complete l t2 rest2 Hv2 Hl2 Hf2) as [E3|(-> & E3 & _)].
    + rewrite E2, E in E3. injection E3 as <- E3. apply app_inv_head in E2. subst rest2.
      apply reaches_push in Hr2. subst l2. eauto.
    + rewrite app_nil_r in E2. rewrite E2, E in E3. discriminate.
Qed.
Lemma lexes_cut : forall l s ts, lexes l s ts -> forall ts0 lt tc l' s2 ts2, s2 <> [] ->
  ts = ts0 ++ [TTerminator lt tc; TEOF l'] -> lexes l (s ++ s2) ts2 ->
  exists ts', ts2 = ts0 ++ TTerminator lt tc :: ts' /\ lexes l' s2 ts'.
Proof.
  intros l s ts H. induction H as [l|l l1 t rest ts Hv Hl Hf Hr Hlex IH]; intros ts0 lt tc l' s2 ts2 Hn E H2.
  - destruct ts0 as [|? [|? ?]]; discriminate.
  - apply reaches_push in Hr. subst l1. rewrite <- app_assoc in H2.
    destruct ts0 as [|a ts0]; cbn [app] in E |- *.
    + injection E as -> E. subst ts. inversion Hlex as [l0 E1 E2|l0 l2 t2 rest2 ts' Hv2 Hl2 Hf2 Hr2 Hlex2 E1 E2]; subst.
      * apply lexes_cut_first in H2 as (ts' & -> & H2); auto; [|destruct s2; exact I]. eauto.
      * destruct Hv2.
    + injection E as -> E. destruct rest as [|c rest].
      * exfalso. inversion Hlex as [l0 E1 E2|l0 l2 t2 rest2 ts' Hv2 Hl2 Hf2 Hr2 Hlex2 E1 E2]; subst.
        -- destruct ts0 as [|? [|? ?]]; discriminate.
        -- pose proof (text_pos _ Hv2). destruct (tok_text t2); [cbn in *; lia|discriminate].
      * apply lexes_cut_first in H2 as (ts' & -> & H2); auto; [|discriminate].
        destruct (IH _ _ _ _ _ _ Hn E H2) as (ts'' & -> & H'). eauto.
Qed.

(** ** Rules *)
Lemma concat_accept : forall name1 name2 u tc s2 rs1 rs2 l1, tc = c_semi \/ tc = c_dot ->
  parse_str name1 (u ++ [tc]) = Ok rs1 -> reaches (loc_new name1) (u ++ [tc]) l1 ->
  parse_str name2 s2 = Ok rs2 ->
  exists rs2', parse_str name1 ((u ++ [tc]) ++ s2) = Ok (rs1 ++ rs2') /\
    Forall2 eq_but_empty rs2' (map (reloc_rule (after l1) (after l1)) rs2).
Proof.
  intros name1 name2 u tc s2 rs1 rs2 l1 Hc H1 Hr H2.
  apply parse_str_ok in H1 as (ts1 & c1 & Hl1 & Ha1).
  apply parse_sound in H2 as (ts2 & Hl2 & Hg2).
  destruct (lexes_terminated _ _ _ _ Hl1 Hc) as (ts0 & lt & l' & E).
  assert (l' = l1) as ->.
  { pose proof (lexes_locations _ _ _ Hl1 (ts0 ++ [TTerminator lt tc]) (TEOF l') []) as L.
    rewrite <- app_assoc in L. specialize (L E). apply reaches_push in L, Hr. cbn [tok_loc] in L.
    rewrite L, Hr. f_equal. pose proof (lexes_text _ _ _ Hl1) as Et. rewrite E in Et.
    rewrite flat_map_app in Et. cbn in Et. rewrite flat_map_app. exact Et. }
  pose proof (lexes_move started (after l1) (after_step l1) _ _ _ Hl2 (started_new _)) as Hl2'.
  rewrite after_new in Hl2'. pose proof (syntax_move (after l1) _ _ Hg2) as Hg2'.
  destruct (append_complete _ _ Hg2' (lexes_vt _ _ _ Hl2')) as (rs2' & Ha2 & Em).
  exists rs2'. split; [|apply eq_but_empty_map; exact Em].
  apply parse_str_ok. exists (ts0 ++ TTerminator lt tc :: map (mv (after l1)) ts2), []. split.
  - eapply lexes_append; [exact Hl1|exact E|exact Hl2'].
  - change (TTerminator lt tc :: map (mv (after l1)) ts2) with ([TTerminator lt tc] ++ map (mv (after l1)) ts2).
    rewrite app_assoc, append_loop_app. subst ts1.
    change [TTerminator lt tc; TEOF l1] with ([TTerminator lt tc] ++ [TEOF l1]) in Ha1.
    rewrite app_assoc, append_loop_app in Ha1.
    destruct (append_loop [] (ts0 ++ [TTerminator lt tc])) as [c0 [rs0| | |]] eqn:E0; try discriminate.
    assert (c0 = []) as ->.
    { rewrite append_loop_app in E0. destruct (append_loop [] ts0) as [c2 [r2| | |]]; try discriminate.
      cbn [append_loop is_terminator] in E0. destruct (build_syntax_rule _) as [o| | |]; try discriminate.
      injection E0 as <- _. reflexivity. }
    rewrite Ha2. cbn [append_loop is_terminator app] in Ha1.
    assert (Eb : build_syntax_rule [TEOF l1] = Ok None) by reflexivity. rewrite Eb in Ha1. cbn [opt_list] in Ha1.
    injection Ha1 as _ <-. rewrite !app_nil_r. reflexivity.
Qed.
Lemma concat_reject : forall name1 name2 u tc s2 rs1 rs, tc = c_semi \/ tc = c_dot ->
  parse_str name1 (u ++ [tc]) = Ok rs1 -> parse_str name1 ((u ++ [tc]) ++ s2) = Ok rs ->
  exists rs2, parse_str name2 s2 = Ok rs2.
Proof.
  intros name1 name2 u tc s2 rs1 rs Hc H1 H.
  destruct s2 as [|x s2']; [exists []; reflexivity|]. set (s2 := x :: s2') in *.
  apply parse_str_ok in H1 as (ts1 & c1 & Hl1 & Ha1).
  apply parse_str_ok in H as (ts & c & Hl & Ha).
  destruct (lexes_terminated _ _ _ _ Hl1 Hc) as (ts0 & lt & l' & E).
  destruct (lexes_cut _ _ _ Hl1 _ _ _ _ s2 _ ltac:(discriminate) E Hl) as (ts2 & E2 & Hl2). subst ts.
  change (TTerminator lt tc :: ts2) with ([TTerminator lt tc] ++ ts2) in Ha. rewrite app_assoc, append_loop_app in Ha.
  destruct (append_loop [] (ts0 ++ [TTerminator lt tc])) as [c0 [rs0| | |]] eqn:E0; try discriminate.
  assert (c0 = []) as ->.
  { rewrite append_loop_app in E0. destruct (append_loop [] ts0) as [c2 [r2| | |]]; try discriminate.
    cbn [append_loop is_terminator] in E0. destruct (build_syntax_rule _) as [o| | |]; try discriminate.
    injection E0 as <- _. reflexivity. }
  destruct (append_loop [] ts2) as [c2 [rs2| | |]] eqn:Ha2; try discriminate.
  assert (c2 = []) as -> by (eapply append_lexed; eassumption).
  apply append_sound in Ha2 as (w & Ew & Hg); [|cbn; eapply lexes_vt; exact Hl2].
  cbn in Ew. rewrite app_nil_r in Ew. subst w.
  assert (Hb : behind l' l') by (unfold behind; lia).
  pose proof (lexes_move (behind l') (since l') (since_step l') _ _ _ Hl2 Hb) as Hl3.
  pose proof (syntax_move (since l') _ _ Hg) as Hg3.
  set (nm := fun l : location => Loc name2 (l_lines l) (l_columns l)).
  assert (Hn : forall l c, True -> True /\ nm (loc_push l c) = loc_push (nm l) c).
  { intros l c0 _. split; [exact I|]. unfold nm, loc_push. destruct (N.eqb c0 c_lf); reflexivity. }
  pose proof (lexes_move (fun _ => True) nm Hn _ _ _ Hl3 I) as Hl4.
  pose proof (syntax_move nm _ _ Hg3) as Hg4.
  assert (En : nm (since l' l') = loc_new name2).
  { unfold nm, since, loc_new. cbn. rewrite N.eqb_refl, !N.sub_diag. reflexivity. }
  rewrite En in Hl4. destruct (parse_complete _ _ _ _ Hl4 Hg4) as (rs' & Hp & _). eauto.
Qed.
