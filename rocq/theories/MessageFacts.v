(** The text of errors can be read back. *)
From Coq Require Import String List NArith Arith Bool Lia.
From Verif Require Import Base Ast Graph Message SpecText SpecTok SpecLex SpecMessage ShowFacts.
Import ListNotations.
Open Scope nat_scope.

(** ** Runs and numbers *)
Lemma run_split : forall (P : N -> Prop) x y c d a b, Forall P x -> Forall P y -> ~ P c -> ~ P d ->
  x ++ c :: a = y ++ d :: b -> x = y /\ c = d /\ a = b.
Proof.
  intros P x. induction x as [|u x IH]; intros [|v y] c d a b Hx Hy Hc Hd E; cbn in E; injection E as E1 E2.
  - auto.
  - subst. inversion Hy; contradiction.
  - subst. inversion Hx; contradiction.
  - subst. inversion Hx; inversion Hy; subst. destruct (IH y c d a b) as (-> & K); auto.
Qed.
Lemma show_N_inj : forall n m, show_N n = show_N m -> n = m.
Proof. intros n m E. destruct (show_N_spec n) as (_ & _ & <-). destruct (show_N_spec m) as (_ & _ & <-). rewrite E. reflexivity. Qed.
Lemma show_N_digits : forall n, Forall digit (show_N n).
Proof. intros n. apply (show_N_spec n). Qed.
Lemma number_split : forall n m c d a b, ~ digit c -> ~ digit d -> show_N n ++ c :: a = show_N m ++ d :: b -> n = m /\ c = d /\ a = b.
Proof.
  intros n m c d a b Hc Hd E. destruct (run_split digit _ _ _ _ _ _ (show_N_digits n) (show_N_digits m) Hc Hd E) as (K & K').
  split; [apply show_N_inj; exact K|exact K'].
Qed.
(** Hexadecimal numbers. *)
Definition hex_value (c : N) : N := (if c <? 58 then c - 48 else c - 87)%N.
Fixpoint hex_from (a : N) (s : list N) : N := match s with [] => a | c :: r => hex_from (16 * a + hex_value c)%N r end.
Definition hexdigit (c : N) : Prop := (48 <= c <= 57 \/ 97 <= c <= 102)%N.
Lemma hex_from_app : forall x y a, hex_from a (x ++ y) = hex_from (hex_from a x) y.
Proof. induction x as [|c x IH]; intros; cbn [app hex_from]; [reflexivity|apply IH]. Qed.
Lemma hex_digits_spec : forall f n acc, (n < 2 ^ N.of_nat f)%N -> 0 < f ->
  exists ds, hex_digits 97 f n acc = ds ++ acc /\ Forall hexdigit ds /\ hex_from 0 ds = n.
Proof.
  induction f as [|f IH]; intros n acc Hn Hf; [lia|]. cbn [hex_digits].
  set (d := (if n mod 16 <? 10 then 48 + n mod 16 else 97 + (n mod 16 - 10))%N).
  assert (Hd : hexdigit d /\ hex_value d = (n mod 16)%N).
  { assert (Hm : (n mod 16 < 16)%N) by (apply N.mod_lt; discriminate). unfold d, hexdigit, hex_value. clear - Hm. generalize dependent (n mod 16)%N. intros m Hm.
    destruct (N.ltb_spec m 10); [destruct (N.ltb_spec (48 + m) 58)|destruct (N.ltb_spec (97 + (m - 10)) 58)]; split; lia. }
  destruct Hd as (Hd & Hv). destruct (N.ltb_spec n 16) as [Hs|Hb].
  - exists [d]. repeat split; [constructor; [exact Hd|constructor]|]. cbn [hex_from]. rewrite Hv. rewrite N.mod_small by lia. lia.
  - rewrite Nnat.Nat2N.inj_succ, N.pow_succ_r' in Hn.
    assert (Hq : (n / 16 < 2 ^ N.of_nat f)%N). { apply N.div_lt_upper_bound; lia. }
    assert (0 < f). { destruct f; [|lia]. cbn in Hn. lia. }
    destruct (IH (n / 16)%N (d :: acc) Hq ltac:(lia)) as (ds & -> & HF & Hvs).
    exists (ds ++ [d]). rewrite <- app_assoc. repeat split.
    + apply Forall_app. split; [exact HF|constructor; [exact Hd|constructor]].
    + rewrite hex_from_app, Hvs. cbn [hex_from]. rewrite Hv. symmetry. apply N.div_mod. discriminate.
Qed.
Lemma show_hex_spec : forall n, Forall hexdigit (show_hex 97 n) /\ hex_from 0 (show_hex 97 n) = n.
Proof.
  intros n. unfold show_hex. destruct (hex_digits_spec (S (N.to_nat (N.log2 n))) n []) as (ds & E & H).
  - rewrite Nnat.Nat2N.inj_succ, Nnat.N2Nat.id. destruct (N.eq_dec n 0) as [-> |Hz]; [reflexivity|]. apply N.log2_spec. lia.
  - lia.
  - rewrite app_nil_r in E. rewrite E. exact H.
Qed.
Lemma hex_split : forall n m c d a b, ~ hexdigit c -> ~ hexdigit d -> show_hex 97 n ++ c :: a = show_hex 97 m ++ d :: b -> n = m /\ a = b.
Proof.
  intros n m c d a b Hc Hd E. destruct (show_hex_spec n) as (Fn & Vn). destruct (show_hex_spec m) as (Fm & Vm).
  destruct (run_split hexdigit _ _ _ _ _ _ Fn Fm Hc Hd E) as (K & _ & K'). split; [rewrite <- Vn, <- Vm, K; reflexivity|exact K'].
Qed.

Section Quotes.
Variable plain : N -> bool.
(** ** Quotations *)
Notation escape := (escape plain).
Inductive escaped (q c : N) : list N -> Prop :=
| es_self : c <> 92%N -> c <> q -> (32 <= c)%N -> escaped q c [c]
| es_short : forall d, In (c, d) [(0, 48); (9, 116); (10, 110); (13, 114); (92, 92); (q, q)]%N -> escaped q c [92%N; d]
| es_hex : escaped q c ([92; 117; 123]%N ++ show_hex 97 c ++ [125%N]).
Lemma escape_spec : forall q c, escaped q c (escape q c).
Proof.
  intros q c. unfold Message.escape.
  destruct (N.eqb_spec c 0) as [-> |H0]; [apply es_short; cbn; tauto|].
  destruct (N.eqb_spec c 9) as [-> |H9]; [apply es_short; cbn; tauto|].
  destruct (N.eqb_spec c 10) as [-> |H10]; [apply es_short; cbn; tauto|].
  destruct (N.eqb_spec c 13) as [-> |H13]; [apply es_short; cbn; tauto|].
  destruct (N.eqb_spec c 92) as [-> |H92]; [apply es_short; cbn; tauto|].
  destruct (N.eqb_spec c q) as [-> |Hq]; [apply es_short; cbn; tauto|]. cbn [orb].
  destruct (if (c <? 128)%N then (32 <=? c)%N && (c <? 127)%N else plain c) eqn:E; [|apply es_hex].
  apply es_self; [exact H92|exact Hq|]. destruct (N.ltb_spec c 128).
  - apply andb_prop in E as (E & _). apply N.leb_le. exact E.
  - lia.
Qed.
Lemma escape_split : forall q c d a b, (q = 34 \/ q = 39)%N -> escape q c ++ a = escape q d ++ b -> c = d /\ a = b.
Proof.
  intros q c d a b Hq E. pose proof (escape_spec q c) as Hc. pose proof (escape_spec q d) as Hd.
  destruct Hc as [C1 C2 _|u Hu|]; destruct Hd as [D1 D2 _|v Hv|]; cbn [app] in E.
  - injection E as -> ->. auto.
  - injection E as E _. contradiction.
  - injection E as E _. contradiction.
  - injection E as E _. symmetry in E. contradiction.
  - injection E as -> ->. cbn in Hu, Hv. destruct Hq as [-> | -> ]; repeat (destruct Hu as [Hu|Hu]); repeat (destruct Hv as [Hv|Hv]); try contradiction; split; congruence.
  - injection E as -> E. cbn in Hu. exfalso. destruct Hq as [-> | -> ]; repeat (destruct Hu as [Hu|Hu]); try discriminate Hu; contradiction.
  - injection E as E _. symmetry in E. contradiction.
  - injection E as <- E. cbn in Hv. exfalso. destruct Hq as [-> | -> ]; repeat (destruct Hv as [Hv|Hv]); try discriminate Hv; contradiction.
  - injection E as E. rewrite <- !app_assoc in E. apply hex_split in E; [|unfold hexdigit; lia|unfold hexdigit; lia]. exact E.
Qed.
Lemma escape_head : forall q c, (q = 34 \/ q = 39)%N -> exists x r, escape q c = x :: r /\ x <> q.
Proof.
  intros q c Hq. destruct (escape_spec q c) as [C1 C2 _|u Hu|]; cbn [app]; eexists; eexists; (split; [reflexivity|]); [exact C2| |]; destruct Hq as [-> | -> ]; discriminate.
Qed.
Lemma escapes_split : forall q s t a b, (q = 34 \/ q = 39)%N -> flat_map (escape q) s ++ q :: a = flat_map (escape q) t ++ q :: b -> s = t /\ a = b.
Proof.
  intros q s t a b Hq. revert t. induction s as [|c s IH]; intros [|d t] E; cbn [flat_map app] in E.
  - injection E as E. auto.
  - exfalso. destruct (escape_head q d Hq) as (x & r & Ed & Hx). rewrite Ed in E. cbn in E. injection E as E _. congruence.
  - exfalso. destruct (escape_head q c Hq) as (x & r & Ed & Hx). rewrite Ed in E. cbn in E. injection E as E _. congruence.
  - rewrite <- !app_assoc in E. apply escape_split in E as (-> & E); [|exact Hq]. apply IH in E as (-> & ->). auto.
Qed.
Lemma debug_split : forall s t a b, debug_text plain s ++ a = debug_text plain t ++ b -> s = t /\ a = b.
Proof.
  intros s t a b E. unfold debug_text in E. cbn [app] in E. injection E as E. rewrite <- !app_assoc in E. cbn [app] in E.
  apply (escapes_split 34%N); [auto|exact E].
Qed.
Lemma debug_char_split : forall c d a b, debug_char plain c ++ a = debug_char plain d ++ b -> c = d /\ a = b.
Proof.
  intros c d a b E. unfold debug_char in E. cbn [app] in E. injection E as E. rewrite <- !app_assoc in E.
  apply escape_split in E as (-> & E); [|auto]. injection E as E. auto.
Qed.
(** For the characters of EBNF texts, this is the simpler [debug_str] of Graph.v. *)
Lemma debug_ascii : forall s, Forall (fun c => 32 <= c < 127)%N s -> debug_text plain s = Graph.debug_str s.
Proof.
  intros s H. unfold debug_text, Graph.debug_str. f_equal. f_equal. induction H as [|c s Hc H IH]; [reflexivity|]. cbn [flat_map]. rewrite IH. f_equal.
  unfold Message.escape. destruct (N.eqb_spec c 0); [lia|]. destruct (N.eqb_spec c 9); [lia|]. destruct (N.eqb_spec c 10); [lia|]. destruct (N.eqb_spec c 13); [lia|].
  rewrite (orb_comm (c =? 34)%N). destruct ((c =? 92)%N || (c =? 34)%N); [reflexivity|]. destruct (N.ltb_spec c 128); [|lia].
  destruct (N.leb_spec 32 c); [|lia]. destruct (N.ltb_spec c 127); [reflexivity|lia].
Qed.
End Quotes.

(** ** Locations *)
Lemma location_inj : forall l l', show_location l = show_location l' -> l = l'.
Proof.
  intros [n a b] [n' a' b'] E. unfold show_location in E. cbn [l_name l_lines l_columns] in E. apply (f_equal (@rev N)) in E.
  repeat (rewrite ?rev_app_distr, <- ?app_assoc in E; cbn [rev app] in E). injection E as E.
  assert (ND : ~ digit 44%N /\ ~ digit 40%N) by (unfold digit; lia). destruct ND as (N1 & N2).
  apply (run_split digit) in E as (E1 & _ & E); [|apply Forall_rev, show_N_digits|apply Forall_rev, show_N_digits|exact N1|exact N1].
  apply (run_split digit) in E as (E2 & _ & E); [|apply Forall_rev, show_N_digits|apply Forall_rev, show_N_digits|exact N2|exact N2].
  apply (f_equal (@rev N)) in E, E1, E2. rewrite !rev_involutive in E, E1, E2. apply show_N_inj in E1, E2. subst. reflexivity.
Qed.
Lemma location_split : forall l l' a b, l_name l = l_name l' -> show_location l ++ a = show_location l' ++ b -> l = l' /\ a = b.
Proof.
  intros [n i j] [n' i' j'] a b En E. unfold show_location in E. cbn [l_name l_lines l_columns] in *. subst n'. rewrite <- !app_assoc in E.
  apply app_inv_head in E. cbn [app] in E. injection E as E.
  assert (ND : ~ digit 44%N /\ ~ digit 41%N) by (unfold digit; lia). destruct ND as (N1 & N2).
  rewrite <- ?app_assoc in E. cbn [app] in E. apply number_split in E as (-> & _ & E); [|assumption|assumption].
  rewrite <- ?app_assoc in E. cbn [app] in E. apply number_split in E as (-> & _ & ->); [|assumption|assumption]. auto.
Qed.
Lemma error_split : forall plain e e', l_name (e_loc e) = l_name (e_loc e') -> show_error plain e = show_error plain e' ->
  e_loc e = e_loc e' /\ render plain (e_msg e) = render plain (e_msg e').
Proof.
  intros plain e e' En E. unfold show_error in E. apply location_split in E as (-> & E); [|exact En]. injection E as E. auto.
Qed.

(** ** Syntactic errors *)
Section Expected.
Variable plain : N -> bool.
Definition between : list N := of_string " expected, but ".
Definition behind : list N := of_string " appeared.".
Lemma escape_tail : forall c x r, escape plain 34 c = x :: r -> ~ In 32%N r.
Proof.
  intros c x r E. pose proof (escape_spec plain 34 c) as H. rewrite E in H. inversion H; subst; intros K.
  - destruct K.
  - destruct K as [-> |[]]. match goal with J : In _ _ |- _ => cbn in J; repeat (destruct J as [J|J]); try discriminate J; contradiction end.
  - destruct K as [K|[K|K]]; try discriminate. apply in_app_or in K as [K|[K|[]]]; [|discriminate].
    destruct (show_hex_spec c) as (HF & _). rewrite Forall_forall in HF. specialize (HF _ K). unfold hexdigit in HF. lia.
Qed.
Lemma plain_prefix : forall p w a b, Forall (fun c => c <> 92 /\ c <> 34)%N p -> p ++ a = flat_map (escape plain 34) w ++ 34%N :: b -> length p <= length w.
Proof.
  induction p as [|c p IH]; intros w a b H E; [cbn; lia|]. inversion H as [|? ? (H1 & H2) H3]; subst. destruct w as [|d w].
  - cbn in E. injection E as E _. contradiction.
  - cbn [flat_map] in E. rewrite <- app_assoc in E. pose proof (escape_spec plain 34 d) as K. destruct K as [C1 C2 _|u Hu|]; cbn [app] in E; injection E as E1 E2; try contradiction.
    cbn. apply le_n_S. eapply IH; eassumption.
Qed.
Lemma not_within : forall w z b, flat_map (escape plain 34) w ++ 34%N :: behind = z ++ between ++ b -> 15 <= length w.
Proof.
  assert (HP : Forall (fun c => c <> 92 /\ c <> 34)%N between) by (repeat (constructor; [split; discriminate|]); constructor).
  induction w as [|c w IH]; intros z b E.
  - exfalso. cbn in E. do 12 (destruct z as [|? z]; [discriminate E|cbn in E; injection E as _ E || discriminate E]).
  - destruct z as [|u z].
    + symmetry in E. cbn [app] in E. exact (plain_prefix between (c :: w) _ _ HP E).
    + cbn [flat_map] in E. rewrite <- app_assoc in E. apply app_eq_app in E as (l & [(E1 & E2)|(E1 & E2)]).
      * destruct l as [|v l].
        -- cbn [length]. apply le_S. apply (IH [] b). symmetry. exact E2.
        -- exfalso. cbn in E2. injection E2 as <- _. cbn [app] in E1. apply (escape_tail _ _ _ E1). apply in_or_app. right. left. reflexivity.
      * cbn [length]. apply le_S. apply (IH l b). exact E2.
Qed.
Lemma no_later : forall a z b, quotable a -> z <> [] -> between ++ show_actual plain a ++ behind <> z ++ between ++ b.
Proof.
  intros a z b Ha Hz E. destruct a as [|s more].
  - do 29 (destruct z as [|? z]; [try contradiction; discriminate E|cbn in E; injection E as _ E || discriminate E]).
  - assert (Hw : exists w, show_actual plain (AText s more) = debug_text plain w /\ length w <= 11).
    { cbn [show_actual]. destruct more; eexists; (split; [reflexivity|]); destruct Ha as (Ha & Ha'); [rewrite app_length; cbn; lia|lia]. }
    destruct Hw as (w & Ew & Hw). rewrite Ew in E. unfold debug_text in E. cbn [app] in E.
    do 15 (destruct z as [|? z]; [try contradiction; discriminate E|cbn [app between of_string] in E; injection E as _ E]).
    destruct z as [|? z]; [discriminate E|]. injection E as _ E. rewrite <- app_assoc in E. apply not_within in E. lia.
Qed.
Lemma quoted_inj : forall a a' b b', quotable a -> quotable a' -> show_actual plain a ++ b = show_actual plain a' ++ b' -> a = a' /\ b = b'.
Proof.
  intros [|s m] [|s' m'] b b' Ha Ha' E; cbn [show_actual] in E; try discriminate.
  - apply app_inv_head in E. auto.
  - apply debug_split in E as (E & ->). destruct Ha as (A1 & A2), Ha' as (B1 & B2). split; [|reflexivity].
    destruct m, m'; [apply app_inv_tail in E|exfalso|exfalso|]; try (subst; reflexivity).
    + apply (f_equal (@length N)) in E. rewrite app_length in E. cbn in E. specialize (A2 eq_refl). lia.
    + apply (f_equal (@length N)) in E. rewrite app_length in E. cbn in E. specialize (B2 eq_refl). lia.
Qed.
Lemma expected_inj : forall x x' a a', quotable a -> quotable a' ->
  x ++ between ++ show_actual plain a ++ behind = x' ++ between ++ show_actual plain a' ++ behind -> x = x' /\ a = a'.
Proof.
  assert (W : forall x x' a a', quotable a -> quotable a' -> length x <= length x' ->
    x ++ between ++ show_actual plain a ++ behind = x' ++ between ++ show_actual plain a' ++ behind -> x = x' /\ a = a').
  { intros x x' a a' Ha Ha' Hl E. apply app_eq_app in E as (l & [(E1 & E2)|(E1 & E2)]).
    - assert (l = []) by (subst x; rewrite app_length in Hl; destruct l; [reflexivity|cbn in Hl; lia]). subst l. rewrite app_nil_r in E1. cbn [app] in E2.
      apply app_inv_head in E2. symmetry in E2. apply quoted_inj in E2 as (-> & _); auto.
    - destruct l as [|u l]; [|exfalso; eapply no_later; [exact Ha| |exact E2]; discriminate]. rewrite app_nil_r in E1. cbn [app] in E2.
      apply app_inv_head in E2. apply quoted_inj in E2 as (-> & _); auto. }
  intros x x' a a' Ha Ha' E. destruct (Nat.le_ge_cases (length x) (length x')) as [H|H]; [apply W; assumption|].
  symmetry in E. destruct (W _ _ _ _ Ha' Ha H E) as (-> & ->). auto.
Qed.
End Expected.

(** ** All messages *)
Fixpoint apart (a b : list N) : bool :=
  match a, b with x :: a', y :: b' => negb (x =? y)%N || apart a' b' | _, _ => false end.
Lemma apart_neq : forall a b x y, apart a b = true -> a ++ x <> b ++ y.
Proof.
  induction a as [|c a IH]; intros [|d b] x y H E; try discriminate. cbn in H, E. injection E as -> E. rewrite N.eqb_refl in H. exact (IH _ _ _ H E).
Qed.
Section All.
Variable plain : N -> bool.
(** The number of the kind and the fixed beginning. *)
Definition opening (m : msg) : nat * list N :=
  match m with
  | MTooLong _ _ _ => (0, of_string "Token such as identifier, comment, or special sequence are too long: ")
  | MAmbiguousComment => (1, of_string "An ambiguous start/end-command-symbol: (*)")
  | MColon => (2, of_string "No colon ':' is allowed here.")
  | MEndCommentNotOpened => (3, of_string "end-comment-symbol '*)' is not opened.")
  | MUndefinedChar _ => (4, of_string "An undefined character was detected: ")
  | MTermBadChar _ => (5, of_string "terminal-string contains a character ")
  | MTermNotClosed _ => (6, of_string "terminal-string is not closed with ")
  | MTermEmpty => (7, of_string "The terminal-string must contain one or more terminal-characters.")
  | MSpecBadChar _ => (8, of_string "special-sequence contains a character ")
  | MSpecNotClosed => (9, of_string "special-sequence is not closed with '?'.")
  | MCommentNotClosed => (10, of_string "This start-comment-symbol '(*' is not closed.")
  | MCommentBadChar _ => (11, of_string "This comment contains a character ")
  | MMetaExpected _ => (12, of_string "meta-identifier expected, but ")
  | MDefiningExpected _ => (13, of_string "meta-identifier or defining-symbol '=' expected, but ")
  | MConcatExpected _ => (14, of_string "concatenate-symbol ',', definition-separator-symbol '|', or terminator-symbol ';' expected, but ")
  | MRepetitionNumber _ => (15, of_string "cannot convert the number of repetitions ")
  | MRepetitionExpected _ => (16, of_string "repetition-symbol '*' expected, but ")
  | MAmbiguousOption => (17, of_string "An ambiguous start/end-option-symbol: (/)")
  | MAmbiguousRepeat => (18, of_string "An ambiguous start/end-repeat-symbol: (:)")
  | MNotClosed _ _ => (19, of_string "start-")
  | MDuplicate _ _ _ => (20, of_string "The meta-identifier ")
  | MUndefinedMeta _ => (21, of_string "meta-identifier """)
  | MRegexTooLong => (22, of_string "Detect a match with more than 256 characters. Regular Expression matches are limited to 256 characters.")
  | MLivelock => (23, of_string "Livelock: reading didn't proceed in repetation")
  | MExpected _ _ => (24, of_string "Syntactic Error: ")
  | _ => (25, [])
  end.
Lemma opens : forall m, clear_msg m -> exists r, render plain m = snd (opening m) ++ r.
Proof.
  intros m H. destruct H; cbn [opening snd render]; try (eexists; reflexivity); try (eexists; symmetry; apply app_nil_r).
  destruct H as [<-|[<-|[<-|[]]]]; eexists; reflexivity.
Qed.
Lemma openings_apart : forall m m', clear_msg m -> clear_msg m' -> fst (opening m) <> fst (opening m') -> apart (snd (opening m)) (snd (opening m')) = true.
Proof.
  intros m m' H H' K. destruct H; destruct H'; cbn [opening fst snd] in *; try contradiction; vm_compute; reflexivity.
Qed.
Lemma same_kind : forall m m', clear_msg m -> clear_msg m' -> render plain m = render plain m' -> fst (opening m) = fst (opening m').
Proof.
  intros m m' H H' E. destruct (Nat.eq_dec (fst (opening m)) (fst (opening m'))) as [K|K]; [exact K|exfalso].
  destruct (opens m H) as (r & Er). destruct (opens m' H') as (r' & Er'). rewrite Er, Er' in E.
  exact (apart_neq _ _ _ _ (openings_apart m m' H H' K) E).
Qed.
Lemma digit_space : ~ digit 32%N. Proof. unfold digit. lia. Qed.
Lemma digit_dot : ~ digit 46%N. Proof. unfold digit. lia. Qed.
Lemma too_long_inj : forall a b c a' b' c', render plain (MTooLong a b c) = render plain (MTooLong a' b' c') -> a = a' /\ b = b' /\ c = c'.
Proof.
  intros a b c a' b' c' E. cbn [render] in E. apply app_inv_head in E.
  change (of_string " + ") with (32%N :: of_string "+ ") in E. cbn [app] in E. apply number_split in E as (-> & _ & E); [|apply digit_space|apply digit_space].
  apply (app_inv_head (of_string "+ ")) in E. change (of_string " > ") with (32%N :: of_string "> ") in E. cbn [app] in E.
  apply number_split in E as (-> & _ & E); [|apply digit_space|apply digit_space]. apply (app_inv_head (of_string "> ")) in E.
  apply (number_split c c' 46 46 [] []) in E as (-> & _); [|apply digit_dot|apply digit_dot]. auto.
Qed.
Lemma duplicate_inj : forall a b c a' b' c', render plain (MDuplicate a b c) = render plain (MDuplicate a' b' c') -> a = a' /\ b = b' /\ c = c'.
Proof.
  intros a b c a' b' c' E. cbn [render] in E. apply app_inv_head in E. apply (f_equal (@rev N)) in E.
  repeat (rewrite ?rev_app_distr, <- ?app_assoc in E). change (rev (of_string ").")) with [46; 41]%N in E. cbn [app] in E. injection E as E.
  assert (ND : ~ digit 44%N /\ ~ digit 40%N) by (unfold digit; lia). destruct ND as (N1 & N2). cbn [rev app] in E.
  apply (run_split digit) in E as (E1 & _ & E); [|apply Forall_rev, show_N_digits|apply Forall_rev, show_N_digits|exact N1|exact N1].
  change (rev (of_string " is defined in (")) with (40%N :: rev (of_string " is defined in ")) in E. cbn [app] in E.
  apply (run_split digit) in E as (E2 & _ & E); [|apply Forall_rev, show_N_digits|apply Forall_rev, show_N_digits|exact N2|exact N2].
  injection E as E. apply (f_equal (@rev N)) in E, E1, E2. rewrite !rev_involutive in E, E1, E2. apply show_N_inj in E1, E2. auto.
Qed.
Lemma not_closed_inj : forall n s n' s', clear_msg (MNotClosed n s) -> clear_msg (MNotClosed n' s') -> render plain (MNotClosed n s) = render plain (MNotClosed n' s') -> n = n' /\ s = s'.
Proof.
  intros n s n' s' H H' E. inversion H as [| | | | | | | | | | | | | | | | | | |? ? Hn| | | | |]; subst. inversion H' as [| | | | | | | | | | | | | | | | | | |? ? Hn'| | | | |]; subst.
  cbn [render] in E. assert (K : n = n').
  { destruct Hn as [<-|[<-|[<-|[]]]]; destruct Hn' as [<-|[<-|[<-|[]]]]; try reflexivity; discriminate E. }
  subst n'. split; [reflexivity|]. apply app_inv_head in E. apply app_inv_head in E. apply app_inv_tail in E. exact E.
Qed.
Lemma render_inj : forall m m', clear_msg m -> clear_msg m' -> render plain m = render plain m' -> m = m'.
Proof.
  intros m m' H H' E. pose proof (same_kind m m' H H' E) as K. destruct m, m'; try discriminate K; try reflexivity; try (inversion H; fail).
  - apply too_long_inj in E as (-> & -> & ->). reflexivity.
  - cbn [render] in E. apply app_inv_head in E. apply debug_char_split in E as (-> & _). reflexivity.
  - cbn [render] in E. apply app_inv_head in E. apply debug_char_split in E as (-> & _). reflexivity.
  - cbn [render] in E. apply app_inv_head in E. apply debug_char_split in E as (-> & _). reflexivity.
  - cbn [render] in E. apply app_inv_head in E. apply debug_char_split in E as (-> & _). reflexivity.
  - cbn [render] in E. apply app_inv_head in E. apply debug_char_split in E as (-> & _). reflexivity.
  - cbn [render] in E. apply app_inv_head in E. apply app_inv_tail in E as ->. reflexivity.
  - cbn [render] in E. apply app_inv_head in E. apply app_inv_tail in E as ->. reflexivity.
  - cbn [render] in E. apply app_inv_head in E. apply app_inv_tail in E as ->. reflexivity.
  - cbn [render] in E. apply app_inv_head in E. apply debug_split in E as (-> & _). reflexivity.
  - cbn [render] in E. apply app_inv_head in E. apply app_inv_tail in E as ->. reflexivity.
  - apply not_closed_inj in E as (-> & ->); [reflexivity|assumption|assumption].
  - apply duplicate_inj in E as (-> & -> & ->). reflexivity.
  - cbn [render] in E. apply app_inv_head in E. apply debug_split in E as (-> & _). reflexivity.
  - cbn [render] in E. apply app_inv_head in E. inversion H; subst. inversion H'; subst. apply expected_inj in E as (-> & ->); auto.
Qed.
End All.
Lemma error_inj : forall plain e e', clear_msg (e_msg e) -> clear_msg (e_msg e') -> l_name (e_loc e) = l_name (e_loc e') ->
  show_error plain e = show_error plain e' -> e = e'.
Proof.
  intros plain [l m] [l' m'] H H' En E. apply error_split in E as (El & Em); [|exact En]. cbn in *. subst l'. apply render_inj in Em; [|exact H|exact H']. subst m'. reflexivity.
Qed.
