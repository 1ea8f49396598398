(** Putting parses together from parts, for properties about particular rules. *)
From Coq Require Import String List NArith Arith Bool Lia.
From Verif Require Import Base Ident Tokenizer Ast Lex Syntax Graph Machine SpecText SpecSyntax SyntaxFacts TokRun SpecParse SpecEvents SpecLaws ParseFacts EventFacts LangFacts TotalFacts TextFacts SpecDoc.
Import ListNotations.
Open Scope nat_scope.

Lemma push_on : forall w l, (l_lines l < l_lines (loc_push_str l w))%N \/
  (l_lines l = l_lines (loc_push_str l w) /\ (l_columns l + N.of_nat (length w) = l_columns (loc_push_str l w))%N).
Proof.
  induction w as [|c w IH]; intros l; [right; cbn; split; [reflexivity|lia]|].
  change (loc_push_str l (c :: w)) with (loc_push_str (loc_push l c) w). cbn [length].
  pose proof (IH (loc_push l c)) as K. remember (loc_push_str (loc_push l c) w) as l'. unfold loc_push in K.
  destruct (N.eqb c c_lf); cbn [l_lines l_columns] in K; lia.
Qed.
Lemma goes_on_place : forall s w s', goes s w s' -> w <> [] -> p_at s' <> p_at s.
Proof.
  intros s w s' H Hw E. apply goes_push in H as (_ & H). rewrite E in H. pose proof (push_on w (p_at s)) as K. rewrite <- H in K.
  destruct w; [congruence|]. cbn [length] in K. lia.
Qed.
Lemma place : forall s w r, p_rest s = w ++ r -> exists s', goes s w s' /\ p_rest s' = r.
Proof. intros s w r H. exists (Pst r (loc_push_str (p_at s) w)). split; [apply goes_push; cbn; auto|reflexivity]. Qed.

(** The head of a text. *)
Definition starts (P : N -> Prop) (t : str) : Prop := match t with [] => False | c :: _ => P c end.

Definition seen (e : event) : item := match e with EvToken _ _ w => Word w | EvBegin _ _ n => Opens n | EvEnd _ _ n => Closes n end.
(** Items in which no pair is empty. *)
Fixpoint filled (it : list item) : bool :=
  match it with Opens _ :: r => match r with Closes _ :: _ => false | _ => filled r end | _ :: r => filled r | [] => true end.
Lemma filled_kept : forall e, filled (map seen e) = true -> remove_empty_pairs e = e.
Proof.
  assert (K : forall e, filled (map seen e) = true -> remove_pairs e = e).
  { induction e as [|x e IH]; intros H; [reflexivity|]. destruct x as [d l w|d l b|d l b]; cbn [map seen filled remove_pairs] in *; try (f_equal; auto).
    destruct e as [|[] e]; cbn [map seen] in *; try discriminate; try (rewrite IH by exact H); reflexivity. }
  intros [|x e] H; [reflexivity|]. cbn [remove_empty_pairs]. f_equal. apply K. destruct x; cbn [map seen filled] in H; try exact H.
  destruct e as [|[] e]; cbn [map seen] in *; congruence || exact H || reflexivity.
Qed.
(** Pieces that can be put together. *)
Definition sound (it : list item) : Prop := filled it = true /\ (forall n r, it <> Closes n :: r) /\ forall n r, it <> r ++ [Opens n].
Lemma sound_nil : sound []. Proof. split; [reflexivity|]. split; [discriminate|]. intros n [|]; discriminate. Qed.
Lemma sound_word : forall w, sound [Word w].
Proof. intros w. split; [reflexivity|]. split; [discriminate|]. intros n [|? [|]]; discriminate. Qed.
Lemma filled_app : forall a b, filled a = true -> filled b = true -> (forall n r, a <> r ++ [Opens n]) -> filled (a ++ b) = true.
Proof.
  induction a as [|x a IH]; intros b Ha Hb H; [exact Hb|]. assert (H' : forall n r, a <> r ++ [Opens n]) by (intros n r E; apply (H n (x :: r)); rewrite E; reflexivity).
  destruct x as [n|w|n]; cbn [app filled] in *; try (apply IH; assumption). destruct a as [|[] a]; [exfalso; apply (H n []); reflexivity| | |discriminate]; apply IH; assumption.
Qed.
Lemma last_app : forall (x : item) a r b, b <> [] -> a ++ b = r ++ [x] -> exists r', b = r' ++ [x].
Proof.
  intros x a r b Hb E. destruct (exists_last Hb) as (b' & y & ->). rewrite app_assoc in E. apply app_inj_tail in E as (_ & ->). exists b'. reflexivity.
Qed.
Lemma sound_app : forall a b, sound a -> sound b -> sound (a ++ b).
Proof.
  intros a b (A1 & A2 & A3) (B1 & B2 & B3). split; [apply filled_app; assumption|]. split.
  - intros n r E. destruct a as [|x a]; [exact (B2 _ _ E)|]. injection E as -> _. exact (A2 _ _ eq_refl).
  - intros n r E. destruct b as [|y b]; [rewrite app_nil_r in E; exact (A3 _ _ E)|]. apply last_app in E as (r' & K); [|discriminate]. exact (B3 _ _ K).
Qed.
Lemma sound_within : forall n it, it <> [] -> sound it -> sound (within n it).
Proof.
  intros n it Hne (A1 & A2 & A3). unfold within. split; [|split].
  - assert (K : filled (it ++ [Closes n]) = true) by (apply filled_app; [exact A1|reflexivity|exact A3]). cbn [filled]. destruct it as [|[] it]; [congruence|exact K|exact K|]. exfalso. eapply A2. reflexivity.
  - discriminate.
  - intros m r E. apply (last_app (Opens m) (Opens n :: it) r [Closes n]) in E as ([|? [|]] & K); discriminate.
Qed.
Lemma sound_flat : forall (f : N -> list item) w, (forall c, sound (f c)) -> sound (flat_map f w).
Proof. intros f w H. induction w; cbn [flat_map]; [apply sound_nil|apply sound_app; auto]. Qed.

Section Rules.
Variable rs : list rule.
Variable cfg : config.
Notation ev := (ev rs cfg).

Definition takes (n : node) (s : pst) (w : str) (s' : pst) : Prop :=
  goes s w s' /\ exists e, ev n s (Match s' e) /\ trail s e s'.
Definition refuses (n : node) (s : pst) : Prop := exists x s', ev n s (No x s' []).
Notation fails := (fails rs cfg).

Lemma refuses_fails : forall n s, refuses n s -> fails n s.
Proof. intros n s (x & s' & H). exists x, s', []. exact H. Qed.

Lemma takes_terminal : forall l w s r, p_rest s = w ++ r -> exists s', takes (NPrim (PTerminal l w)) s w s' /\ p_rest s' = r.
Proof.
  intros l w s r H. destruct (place _ _ _ H) as (s' & G & R). exists s'. split; [|exact R]. split; [exact G|].
  eexists. split; [apply ev_terminal; exact G|]. eapply tr_token; [exact G|apply tr_nil].
Qed.
Lemma refuses_terminal : forall l w s, (forall r, p_rest s <> w ++ r) -> refuses (NPrim (PTerminal l w)) s.
Proof. intros l w s H. do 2 eexists. apply ev_terminal_no. intros s' (G & _). exact (H _ G). Qed.
Lemma terminal_at : forall l w s, (exists s', takes (NPrim (PTerminal l w)) s w s' /\ p_rest s = w ++ p_rest s') \/
  (refuses (NPrim (PTerminal l w)) s /\ forall r, p_rest s <> w ++ r).
Proof.
  intros l w s. destruct (goes_dec w s) as [(s' & G)|G].
  - left. destruct G as (G & ?). destruct (takes_terminal l w s _ G) as (s1 & T & R). exists s1. rewrite R. auto.
  - right. assert (K : forall r, p_rest s <> w ++ r) by (intros r E; destruct (place _ _ _ E) as (s' & G' & _); exact (G _ G')).
    split; [apply refuses_terminal; exact K|exact K].
Qed.

Lemma takes_just : forall p s w s', takes (NPrim p) s w s' -> takes (NTerm (just p)) s w s'.
Proof. intros p s w s' (G & e & H & T). split; [exact G|]. exists e. split; [apply ev_term_plain, ev_factor_one; exact H|exact T]. Qed.
Lemma refuses_just : forall p s, refuses (NPrim p) s -> refuses (NTerm (just p)) s.
Proof. intros p s (x & s' & H). do 2 eexists. apply ev_term_plain, ev_factor_one. exact H. Qed.
Lemma fails_just : forall p s, fails (NPrim p) s -> fails (NTerm (just p)) s.
Proof. intros p s (x & s' & e & H). do 3 eexists. apply ev_term_plain, ev_factor_one. exact H. Qed.

Lemma takes_nil : forall s, takes (NSeq []) s [] s.
Proof. intros s. split; [apply goes_nil|]. exists []. split; [apply ev_seq_nil|apply tr_nil]. Qed.
Lemma takes_seq : forall t ts s w s1 w2 s2, bare_group t = None -> takes (NTerm t) s w s1 -> takes (NSeq ts) s1 w2 s2 ->
  takes (NSeq (t :: ts)) s (w ++ w2) s2.
Proof.
  intros t ts s w s1 w2 s2 Hb (G & e & H & T) (G2 & e2 & H2 & T2). split; [eapply goes_app; eauto|].
  exists (e ++ e2). split; [|eapply trail_app; eauto]. exact (ev_seq _ _ _ _ _ _ _ _ Hb H H2).
Qed.
Lemma takes_last : forall t s w s1, bare_group t = None -> takes (NTerm t) s w s1 -> takes (NSeq [t]) s w s1.
Proof. intros t s w s1 Hb H. rewrite <- (app_nil_r w). eapply takes_seq; [exact Hb|exact H|apply takes_nil]. Qed.
Lemma takes_group : forall l d ts s w s1, takes (NDefs d) s w s1 -> takes (NSeq (just (PGrouped l d) :: ts)) s w s1.
Proof. intros l d ts s w s1 (G & e & H & T). split; [exact G|]. exists e. split; [eapply ev_seq_group; [reflexivity|exact H]|exact T]. Qed.
Lemma fails_group : forall l d ts s, fails (NDefs d) s -> fails (NSeq (just (PGrouped l d) :: ts)) s.
Proof. intros l d ts s (x & s' & e & H). do 3 eexists. eapply ev_seq_group; [reflexivity|exact H]. Qed.
Lemma refuses_seq : forall t ts s, bare_group t = None -> refuses (NTerm t) s -> refuses (NSeq (t :: ts)) s.
Proof. intros t ts s Hb (x & s' & H). do 2 eexists. apply ev_seq_no; [exact Hb|exact H]. Qed.
Lemma fails_seq : forall t ts s w s1, bare_group t = None -> takes (NTerm t) s w s1 -> fails (NSeq ts) s1 -> fails (NSeq (t :: ts)) s.
Proof.
  intros t ts s w s1 Hb (G & e & H & T) (x & s2 & e2 & H2). do 3 eexists. exact (ev_seq _ _ _ _ _ _ _ _ Hb H H2).
Qed.

Lemma takes_meta : forall l id r s w s', names rs id r -> takes (NDefs (r_defs r)) s w s' -> takes (NPrim (PMeta l id)) s w s'.
Proof.
  intros l id r s w s' Hn (G & e & H & T). split; [exact G|]. eexists. split; [apply ev_meta; eapply ev_ref; [exact Hn|exact H]|].
  cbn. apply tr_begin. eapply trail_app; [exact T|]. apply tr_end, tr_nil.
Qed.
Lemma refuses_meta : forall l id r s, names rs id r -> fails (NDefs (r_defs r)) s -> refuses (NPrim (PMeta l id)) s.
Proof. intros l id r s Hn (x & s' & e & H). do 2 eexists. apply ev_meta. eapply ev_ref_no; [exact Hn|exact H]. Qed.

Lemma takes_one : forall d s w s', takes (NSeq d) s w s' -> takes (NDefs [d]) s w s'.
Proof. intros d s w s' (G & e & H & T). split; [exact G|]. exists e. split; [apply ev_defs_one; exact H|exact T]. Qed.
Lemma fails_one : forall d s, fails (NSeq d) s -> fails (NDefs [d]) s.
Proof. intros d s (x & s' & e & H). do 3 eexists. apply ev_defs_one. exact H. Qed.
Lemma refuses_one : forall d s, refuses (NSeq d) s -> refuses (NDefs [d]) s.
Proof. intros d s (x & s' & H). do 2 eexists. apply ev_defs_one. exact H. Qed.

Lemma alts_takes : forall a d b s w s', Forall (fun x => fails (NSeq x) s) a -> takes (NSeq d) s w s' ->
  takes (NAlts (a ++ d :: b)) s w s'.
Proof.
  intros a d b s w s' Ha (G & e & H & T). split; [exact G|]. exists e. split; [|exact T].
  induction Ha as [|x a (y & s1 & e1 & Hx) Ha IH]; cbn [app]; [apply ev_alts_first; exact H|]. eapply ev_alts_next; [exact Hx|exact IH].
Qed.
Lemma alts_fails : forall ds s, ds <> [] -> Forall (fun x => fails (NSeq x) s) ds -> exists x, ev (NAlts ds) s (No x s []).
Proof.
  intros ds s Hne H. induction H as [|d ds (x & s1 & e1 & Hx) H IH]; [congruence|]. destruct ds as [|d' ds].
  - eexists. eapply ev_alts_last. exact Hx.
  - destruct IH as (x2 & Hx2); [discriminate|]. eexists. eapply ev_alts_no; [exact Hx|exact Hx2].
Qed.
Lemma takes_alts : forall a d b s w s', a ++ b <> [] -> Forall (fun x => fails (NSeq x) s) a -> takes (NSeq d) s w s' ->
  takes (NDefs (a ++ d :: b)) s w s'.
Proof.
  intros a d b s w s' Hne Ha Hd. destruct (alts_takes a d b s w s' Ha Hd) as (G & e & H & T). split; [exact G|]. exists e. split; [|exact T].
  destruct a as [|x [|y a]]; cbn [app] in *; [destruct b as [|y b]; [congruence|]| |]; apply ev_defs; exact H.
Qed.
Lemma refuses_alts : forall d d' ds s, Forall (fun x => fails (NSeq x) s) (d :: d' :: ds) -> refuses (NDefs (d :: d' :: ds)) s.
Proof.
  intros d d' ds s H. destruct (alts_fails (d :: d' :: ds) s ltac:(discriminate) H) as (x & Hx).
  destruct (loc_eqb (e_loc x) (p_at s)) eqn:E.
  - do 2 eexists. eapply ev_defs_here; [exact Hx|]. apply loc_eqb_eq. exact E.
  - do 2 eexists. eapply ev_defs_ahead; [exact Hx|]. intros K. rewrite K, loc_eqb_refl in E. discriminate.
Qed.

Lemma takes_round : forall i b s w s1 w2 s2, (i < max_count)%N -> w <> [] -> takes b s w s1 ->
  takes (NTimes 0 max_count (i + 1) b) s1 w2 s2 -> takes (NTimes 0 max_count i b) s (w ++ w2) s2.
Proof.
  intros i b s w s1 w2 s2 Hi Hw (G & e & H & T) (G2 & e2 & H2 & T2). split; [eapply goes_app; eauto|].
  exists (e ++ e2). split; [|eapply trail_app; eauto]. eapply ev_times_more; [exact Hi|intros _; eapply goes_on_place; eauto|exact H|exact H2].
Qed.
Lemma takes_stop : forall i b s, refuses b s -> takes (NTimes 0 max_count i b) s [] s.
Proof.
  intros i b s (x & s' & H). split; [apply goes_nil|]. exists []. split; [|apply tr_nil].
  destruct (N.ltb_spec i max_count); [eapply ev_times_stop; [assumption|lia|exact H]|apply ev_times_end; assumption].
Qed.

(** A construct that reads one character of the class [P]. *)
Definition reads_one (P : N -> Prop) (n : node) : Prop :=
  (forall s c r, p_rest s = c :: r -> P c -> exists s', takes n s [c] s' /\ p_rest s' = r) /\
  (forall s, ~ starts P (p_rest s) -> refuses n s).
Lemma takes_run : forall P n, reads_one P n -> forall w i s r, p_rest s = w ++ r -> Forall P w -> ~ starts P r ->
  (i + N.of_nat (length w) <= max_count)%N -> exists s', takes (NTimes 0 max_count i n) s w s' /\ p_rest s' = r.
Proof.
  intros P n (Hy & Hn). induction w as [|c w IH]; intros i s r E Hw Hr Hi; cbn [app length] in *.
  - exists s. split; [|exact E]. apply takes_stop, Hn. rewrite E. exact Hr.
  - inversion Hw as [|? ? Hc Hw']; subst. destruct (Hy s c (w ++ r) E Hc) as (s1 & T1 & R1).
    destruct (IH (i + 1)%N s1 r R1 Hw' Hr ltac:(lia)) as (s2 & T2 & R2). exists s2. split; [|exact R2].
    apply (takes_round i n s [c] s1 w s2 ltac:(lia) ltac:(discriminate) T1 T2).
Qed.
Lemma takes_repeated : forall P l d, reads_one P (NDefs d) -> forall s w r, p_rest s = w ++ r -> Forall P w -> ~ starts P r ->
  (N.of_nat (length w) <= max_count)%N -> exists s', takes (NTerm (just (PRepeated l d))) s w s' /\ p_rest s' = r.
Proof.
  intros P l d H s w r E Hw Hr Hl. destruct (takes_run P (NDefs d) H w 0%N s r E Hw Hr ltac:(lia)) as (s' & (G & e & V & T) & R).
  exists s'. split; [|exact R]. apply takes_just. split; [exact G|]. exists e. split; [apply ev_repeated; exact V|exact T].
Qed.

(** A choice of single characters. *)
Definition choice (lcs : list (location * N)) : definition_list := map (fun lc => [just (PTerminal (fst lc) [snd lc])]) lcs.
Lemma choice_reads : forall x y lcs P, (forall c, P c <-> In c (map snd (x :: y :: lcs))) -> reads_one P (NDefs (choice (x :: y :: lcs))).
Proof.
  intros x y lcs P HP.
  assert (No : forall lc s r c, p_rest s = c :: r -> c <> snd lc -> fails (NSeq [just (PTerminal (fst lc) [snd lc])]) s).
  { intros lc s r c E Hc. apply refuses_fails, refuses_seq; [reflexivity|]. apply refuses_just, refuses_terminal. intros r' E'. rewrite E in E'. injection E' as E' _. congruence. }
  split.
  - intros s c r E Hc. apply HP in Hc.
    assert (K : exists a lc b, x :: y :: lcs = a ++ lc :: b /\ snd lc = c /\ ~ In c (map snd a)).
    { clear HP E No. generalize dependent (x :: y :: lcs). intros all. induction all as [|z all IH]; intros Hc; [destruct Hc|].
      destruct (N.eq_dec (snd z) c) as [Ez|Ez]; [exists [], z, all; auto|]. destruct Hc as [Hc|Hc]; [congruence|].
      destruct (IH Hc) as (a & lc & b & E1 & E2 & E3). exists (z :: a), lc, b. rewrite E1. split; [reflexivity|]. split; [exact E2|].
      intros [K|K]; auto. }
    destruct K as (a & lc & b & E1 & E2 & E3).
    destruct (takes_terminal (fst lc) [snd lc] s r) as (s' & T & R); [rewrite E2; exact E|]. exists s'. split; [|exact R].
    rewrite E1. unfold choice. rewrite map_app. cbn [map]. rewrite <- E2. apply takes_alts.
    + destruct a as [|? [|]], b; discriminate.
    + apply Forall_forall. intros d Hd. apply in_map_iff in Hd as (lc' & <- & Hin). apply (No lc' s r c E). intros K. apply E3. rewrite K. apply in_map. exact Hin.
    + apply takes_last; [reflexivity|]. apply takes_just. exact T.
  - intros s Hs. apply refuses_alts. change (Forall (fun d => fails (NSeq d) s) (choice (x :: y :: lcs))).
    apply Forall_forall. intros d Hd. apply in_map_iff in Hd as (lc & <- & Hin). apply refuses_fails, refuses_seq; [reflexivity|].
    apply refuses_just, refuses_terminal. intros r E. apply Hs. rewrite E. apply HP. apply in_map. exact Hin.
Qed.
Lemma reads_meta : forall P l id r, names rs id r -> reads_one P (NDefs (r_defs r)) -> reads_one P (NPrim (PMeta l id)).
Proof.
  intros P l id r Hn (Hy & Hno). split.
  - intros s c t E Hc. destruct (Hy s c t E Hc) as (s' & T & R). exists s'. split; [eapply takes_meta; eauto|exact R].
  - intros s Hs. eapply refuses_meta; [exact Hn|]. apply refuses_fails, Hno, Hs.
Qed.
Lemma reads_single : forall P p, (forall l d, p <> PGrouped l d) -> reads_one P (NPrim p) -> reads_one P (NSeq [just p]).
Proof.
  intros P p Hg (Hy & Hno). assert (Hb : bare_group (just p) = None) by (destruct p; try reflexivity; exfalso; eapply Hg; reflexivity). split.
  - intros s c t E Hc. destruct (Hy s c t E Hc) as (s' & T & R). exists s'. split; [apply takes_last; [exact Hb|]; apply takes_just; exact T|exact R].
  - intros s Hs. apply refuses_seq; [exact Hb|]. apply refuses_just, Hno, Hs.
Qed.
Lemma reads_either : forall P Q d d', reads_one P (NSeq d) -> reads_one Q (NSeq d') -> (forall c, P c \/ ~ P c) ->
  reads_one (fun c => P c \/ Q c) (NDefs [d; d']).
Proof.
  intros P Q d d' (Hy & Hno) (Hy' & Hno') Hdec. split.
  - intros s c t E Hc. destruct (Hdec c) as [Hp|Hp].
    + destruct (Hy s c t E Hp) as (s' & T & R). exists s'. split; [|exact R]. exact (takes_alts [] d [d'] s _ s' ltac:(discriminate) (Forall_nil _) T).
    + destruct Hc as [Hc|Hc]; [contradiction|]. destruct (Hy' s c t E Hc) as (s' & T & R). exists s'. split; [|exact R].
      refine (takes_alts [d] d' [] s _ s' ltac:(discriminate) _ T). constructor; [|constructor]. apply refuses_fails, Hno. rewrite E. exact Hp.
  - intros s Hs. apply refuses_alts. constructor; [|constructor; [|constructor]]; apply refuses_fails; [apply Hno|apply Hno']; intros K; apply Hs; destruct (p_rest s); [destruct K|left; exact K|destruct K|right; exact K].
Qed.
(** Splitting a text behind a run. *)
Lemma span : forall P : N -> Prop, (forall c, P c \/ ~ P c) -> forall t, exists w r, t = w ++ r /\ Forall P w /\ ~ starts P r.
Proof.
  intros P Hd. induction t as [|c t (w & r & -> & Hw & Hr)]; [exists [], []; auto|]. destruct (Hd c) as [Hc|Hc].
  - exists (c :: w), r. auto.
  - exists [], (c :: w ++ r). auto.
Qed.
(** The same with the items of the events. *)
Definition tells (n : node) (s : pst) (w : str) (it : list item) (s' : pst) : Prop :=
  goes s w s' /\ exists e, ev n s (Match s' e) /\ map seen e = it.
Lemma tells_terminal : forall l w s r, p_rest s = w ++ r -> exists s', tells (NPrim (PTerminal l w)) s w [Word w] s' /\ p_rest s' = r.
Proof. intros l w s r H. destruct (place _ _ _ H) as (s' & G & R). exists s'. split; [|exact R]. split; [exact G|]. eexists. split; [apply ev_terminal; exact G|reflexivity]. Qed.
Lemma tells_just : forall p s w it s', tells (NPrim p) s w it s' -> tells (NTerm (just p)) s w it s'.
Proof. intros p s w it s' (G & e & H & T). split; [exact G|]. exists e. split; [apply ev_term_plain, ev_factor_one; exact H|exact T]. Qed.
Lemma tells_nil : forall s, tells (NSeq []) s [] [] s.
Proof. intros s. split; [apply goes_nil|]. exists []. split; [apply ev_seq_nil|reflexivity]. Qed.
Lemma tells_seq : forall t ts s w it s1 w2 it2 s2, bare_group t = None -> tells (NTerm t) s w it s1 -> tells (NSeq ts) s1 w2 it2 s2 ->
  tells (NSeq (t :: ts)) s (w ++ w2) (it ++ it2) s2.
Proof.
  intros t ts s w it s1 w2 it2 s2 Hb (G & e & H & <-) (G2 & e2 & H2 & <-). split; [eapply goes_app; eauto|].
  exists (e ++ e2). split; [|apply map_app]. exact (ev_seq _ _ _ _ _ _ _ _ Hb H H2).
Qed.
Lemma tells_last : forall t s w it s1, bare_group t = None -> tells (NTerm t) s w it s1 -> tells (NSeq [t]) s w it s1.
Proof. intros t s w it s1 Hb H. rewrite <- (app_nil_r w), <- (app_nil_r it). eapply tells_seq; [exact Hb|exact H|apply tells_nil]. Qed.
Lemma tells_group : forall l d ts s w it s1, tells (NDefs d) s w it s1 -> tells (NSeq (just (PGrouped l d) :: ts)) s w it s1.
Proof. intros l d ts s w it s1 (G & e & H & T). split; [exact G|]. exists e. split; [eapply ev_seq_group; [reflexivity|exact H]|exact T]. Qed.
Lemma tells_meta : forall l id r s w it s', names rs id r -> r_id r = id -> tells (NDefs (r_defs r)) s w it s' -> tells (NPrim (PMeta l id)) s w (within id it) s'.
Proof.
  intros l id r s w it s' Hn Hi (G & e & H & <-). split; [exact G|]. eexists. split; [apply ev_meta; eapply ev_ref; [exact Hn|exact H]|].
  rewrite Hi. unfold within. cbn [app map seen]. rewrite map_app. reflexivity.
Qed.
Lemma tells_one : forall d s w it s', tells (NSeq d) s w it s' -> tells (NDefs [d]) s w it s'.
Proof. intros d s w it s' (G & e & H & T). split; [exact G|]. exists e. split; [apply ev_defs_one; exact H|exact T]. Qed.
Lemma tells_alts : forall a d b s w it s', a ++ b <> [] -> Forall (fun x => fails (NSeq x) s) a -> tells (NSeq d) s w it s' ->
  tells (NDefs (a ++ d :: b)) s w it s'.
Proof.
  intros a d b s w it s' Hne Ha (G & e & H & T). split; [exact G|]. exists e. split; [|exact T].
  assert (K : ev (NAlts (a ++ d :: b)) s (Match s' e)).
  { induction Ha as [|x a (y & s1 & e1 & Hx) Ha IH]; cbn [app]; [apply ev_alts_first; exact H|]. eapply ev_alts_next; [exact Hx|]. destruct a as [|z a].
    - apply ev_alts_first. exact H.
    - apply IH. discriminate. }
  destruct a as [|x [|y a]]; cbn [app] in *; [destruct b as [|y b]; [congruence|]| |]; apply ev_defs; exact K.
Qed.
Lemma tells_round : forall i b s w it s1 w2 it2 s2, (i < max_count)%N -> w <> [] -> tells b s w it s1 ->
  tells (NTimes 0 max_count (i + 1) b) s1 w2 it2 s2 -> tells (NTimes 0 max_count i b) s (w ++ w2) (it ++ it2) s2.
Proof.
  intros i b s w it s1 w2 it2 s2 Hi Hw (G & e & H & <-) (G2 & e2 & H2 & <-). split; [eapply goes_app; eauto|].
  exists (e ++ e2). split; [|apply map_app]. eapply ev_times_more; [exact Hi|intros _; eapply goes_on_place; eauto|exact H|exact H2].
Qed.
Lemma tells_stop : forall i b s, refuses b s -> tells (NTimes 0 max_count i b) s [] [] s.
Proof.
  intros i b s (x & s' & H). split; [apply goes_nil|]. exists []. split; [|reflexivity].
  destruct (N.ltb_spec i max_count); [eapply ev_times_stop; [assumption|lia|exact H]|apply ev_times_end; assumption].
Qed.
Definition tells_one_char (P : N -> Prop) (f : N -> list item) (n : node) : Prop :=
  forall s c r, p_rest s = c :: r -> P c -> exists s', tells n s [c] (f c) s' /\ p_rest s' = r.
Lemma tells_repeated : forall P f l d, reads_one P (NDefs d) -> tells_one_char P f (NDefs d) -> forall s w r, p_rest s = w ++ r -> Forall P w -> ~ starts P r ->
  (N.of_nat (length w) <= max_count)%N -> exists s', tells (NTerm (just (PRepeated l d))) s w (flat_map f w) s' /\ p_rest s' = r.
Proof.
  intros P f l d (_ & Hn) Hy.
  assert (K : forall w i s r, p_rest s = w ++ r -> Forall P w -> ~ starts P r -> (i + N.of_nat (length w) <= max_count)%N ->
    exists s', tells (NTimes 0 max_count i (NDefs d)) s w (flat_map f w) s' /\ p_rest s' = r).
  { induction w as [|c w IH]; intros i s r E Hw Hr Hi; cbn [app length flat_map] in *.
    - exists s. split; [|exact E]. apply tells_stop, Hn. rewrite E. exact Hr.
    - inversion Hw as [|? ? Hc Hw']; subst. destruct (Hy s c (w ++ r) E Hc) as (s1 & T1 & R1).
      destruct (IH (i + 1)%N s1 r R1 Hw' Hr ltac:(lia)) as (s2 & T2 & R2). exists s2. split; [|exact R2].
      apply (tells_round i _ s [c] _ s1 w _ s2 ltac:(lia) ltac:(discriminate) T1 T2). }
  intros s w r E Hw Hr Hl. destruct (K w 0%N s r E Hw Hr ltac:(lia)) as (s' & (G & e & V & T) & R).
  exists s'. split; [|exact R]. apply tells_just. split; [exact G|]. exists e. split; [apply ev_repeated; exact V|exact T].
Qed.
Lemma choice_tells : forall x y lcs P, (forall c, P c <-> In c (map snd (x :: y :: lcs))) -> tells_one_char P (fun c => [Word [c]]) (NDefs (choice (x :: y :: lcs))).
Proof.
  intros x y lcs P HP s c r E Hc. apply HP in Hc.
  assert (No : forall lc, c <> snd lc -> fails (NSeq [just (PTerminal (fst lc) [snd lc])]) s).
  { intros lc Hlc. apply refuses_fails, refuses_seq; [reflexivity|]. apply refuses_just, refuses_terminal. intros r' E'. rewrite E in E'. injection E' as E' _. congruence. }
  assert (K : exists a lc b, x :: y :: lcs = a ++ lc :: b /\ snd lc = c /\ ~ In c (map snd a)).
  { clear HP E No. generalize dependent (x :: y :: lcs). intros all. induction all as [|z all IH]; intros Hc; [destruct Hc|].
    destruct (N.eq_dec (snd z) c) as [Ez|Ez]; [exists [], z, all; auto|]. destruct Hc as [Hc|Hc]; [congruence|].
    destruct (IH Hc) as (a & lc & b & E1 & E2 & E3). exists (z :: a), lc, b. rewrite E1. split; [reflexivity|]. split; [exact E2|].
    intros [K|K]; auto. }
  destruct K as (a & lc & b & E1 & E2 & E3).
  destruct (tells_terminal (fst lc) [snd lc] s r) as (s' & T & R); [rewrite E2; exact E|]. exists s'. split; [|exact R].
  rewrite E1. unfold choice. rewrite map_app. cbn [map]. rewrite <- E2. apply tells_alts.
  + destruct a as [|? [|]], b; discriminate.
  + apply Forall_forall. intros d Hd. apply in_map_iff in Hd as (lc' & <- & Hin). apply (No lc'). intros K. apply E3. rewrite K. apply in_map. exact Hin.
  + apply tells_last; [reflexivity|]. apply tells_just. exact T.
Qed.
End Rules.
