(** Numbers and quotations in messages read as what they stand for. *)
From Coq Require Import String List NArith Arith Bool Lia.
From Verif Require Import Base Ast Graph Message SpecText SpecTok SpecLex SpecGram SpecMessage ShowFacts MessageFacts.
Import ListNotations.
Open Scope nat_scope.

Lemma place_app : forall b v x y a, place_value b v a (x ++ y) = place_value b v (place_value b v a x) y.
Proof. induction x as [|c x IH]; intros; cbn [app place_value]; [reflexivity|apply IH]. Qed.
Definition hex_of (ten c : N) : Prop := (48 <= c <= 57 \/ ten <= c <= ten + 5)%N.
Lemma hex_digits_reads : forall ten, (ten = 65 \/ ten = 97)%N -> forall f n acc, (n < 2 ^ N.of_nat f)%N -> 0 < f ->
  exists ds, hex_digits ten f n acc = ds ++ acc /\ Forall (hex_of ten) ds /\ place_value 16 hexit 0 ds = n /\ ds <> [] /\
    ((0 < n)%N -> hd_error ds <> Some 48%N).
Proof.
  intros ten Hten. induction f as [|f IH]; intros n acc Hn Hf; [lia|]. cbn [hex_digits].
  set (d := (if n mod 16 <? 10 then 48 + n mod 16 else ten + (n mod 16 - 10))%N).
  assert (Hd : hex_of ten d /\ hexit d = (n mod 16)%N /\ (d = 48%N -> n mod 16 = 0)%N).
  { assert (Hm : (n mod 16 < 16)%N) by (apply N.mod_lt; discriminate). unfold d, hex_of, hexit. clear - Hm Hten. generalize dependent (n mod 16)%N. intros m Hm.
    destruct Hten as [-> | ->]; destruct (N.ltb_spec m 10).
    - destruct (N.ltb_spec (48 + m) 58); repeat split; lia.
    - destruct (N.ltb_spec (65 + (m - 10)) 58); [lia|]. destruct (N.ltb_spec (65 + (m - 10)) 71); repeat split; lia.
    - destruct (N.ltb_spec (48 + m) 58); repeat split; lia.
    - destruct (N.ltb_spec (97 + (m - 10)) 58); [lia|]. destruct (N.ltb_spec (97 + (m - 10)) 71); repeat split; lia. }
  destruct Hd as (Hd & Hv & Hz). destruct (N.ltb_spec n 16) as [Hs|Hb].
  - exists [d]. repeat split; [constructor; [exact Hd|constructor]| |discriminate|].
    + cbn [place_value]. rewrite Hv. rewrite N.mod_small by lia. lia.
    + intros Hp E. cbn [hd_error] in E. injection E as E. apply Hz in E. rewrite N.mod_small in E by lia. lia.
  - rewrite Nnat.Nat2N.inj_succ, N.pow_succ_r' in Hn.
    assert (Hq : (n / 16 < 2 ^ N.of_nat f)%N). { apply N.div_lt_upper_bound; lia. }
    assert (0 < f). { destruct f; [|lia]. cbn in Hn. lia. }
    destruct (IH (n / 16)%N (d :: acc) Hq ltac:(lia)) as (ds & -> & HF & Hvs & Hne & Hh).
    exists (ds ++ [d]). rewrite <- app_assoc. repeat split.
    + apply Forall_app. split; [exact HF|constructor; [exact Hd|constructor]].
    + rewrite place_app, Hvs. cbn [place_value]. rewrite Hv. symmetry. apply N.div_mod. discriminate.
    + intros E. apply app_eq_nil in E as (E & _). contradiction.
    + intros _. destruct ds as [|x ds]; [contradiction|]. cbn [app hd_error] in *. apply Hh.
      apply N.div_str_pos. lia.
Qed.
Lemma show_hex_reads : forall ten, (ten = 65 \/ ten = 97)%N -> forall n,
  Forall (hex_of ten) (show_hex ten n) /\ place_value 16 hexit 0 (show_hex ten n) = n /\ show_hex ten n <> [] /\ ((0 < n)%N -> hd_error (show_hex ten n) <> Some 48%N).
Proof.
  intros ten Hten n. unfold show_hex. destruct (hex_digits_reads ten Hten (S (N.to_nat (N.log2 n))) n []) as (ds & E & H).
  - rewrite Nnat.Nat2N.inj_succ, Nnat.N2Nat.id. destruct (N.eq_dec n 0) as [-> |Hz]; [reflexivity|]. apply N.log2_spec. lia.
  - lia.
  - rewrite app_nil_r in E. rewrite E. exact H.
Qed.
Lemma place_zeros : forall k s, place_value 16 hexit 0 (repeat 48%N k ++ s) = place_value 16 hexit 0 s.
Proof. induction k as [|k IH]; intros s; [reflexivity|]. cbn [repeat app place_value]. apply IH. Qed.
Lemma show_04X_reads : forall n, code_point (show_04X n) n.
Proof.
  intros n. destruct (N.eq_dec n 0) as [-> |Hz].
  { change (show_04X 0) with [48; 48; 48; 48]%N. repeat split; [apply le_n|repeat (constructor; [lia|]); constructor|cbn [length]; lia]. }
  unfold show_04X. destruct (show_hex_reads 65%N (or_introl eq_refl) n) as (HF & Hv & Hne & Hh).
  set (s := show_hex 65 n) in *. clearbody s. unfold code_point. rewrite app_length, repeat_length. repeat split.
  - lia.
  - apply Forall_app. split; [|exact HF]. apply Forall_forall. intros x Hx. apply repeat_spec in Hx. subst. lia.
  - rewrite place_zeros. exact Hv.
  - intros H4 E. replace (4 - length s) with 0 in E by lia. cbn [repeat app] in E. apply Hh; [lia|exact E].
Qed.

Lemma escape_reads : forall plain q c w s, literal q w s -> literal q (escape plain q c ++ w) (c :: s).
Proof.
  intros plain q c w s Hl. unfold escape.
  destruct (N.eqb_spec c 0) as [-> |H0]; [apply lit_short; [cbn; tauto|exact Hl]|].
  destruct (N.eqb_spec c 9) as [-> |H9]; [apply lit_short; [cbn; tauto|exact Hl]|].
  destruct (N.eqb_spec c 10) as [-> |H10]; [apply lit_short; [cbn; tauto|exact Hl]|].
  destruct (N.eqb_spec c 13) as [-> |H13]; [apply lit_short; [cbn; tauto|exact Hl]|].
  destruct (N.eqb_spec c 92) as [-> |H92]; [apply lit_short; [cbn; tauto|exact Hl]|].
  destruct (N.eqb_spec c q) as [-> |Hq]; [apply lit_short; [cbn; tauto|exact Hl]|]. cbn [orb].
  destruct (if (c <? 128)%N then (32 <=? c)%N && (c <? 127)%N else plain c) eqn:E.
  - cbn [app]. destruct (N.ltb_spec c 128).
    + apply andb_prop in E as (E1 & E2). apply N.leb_le in E1. apply N.ltb_lt in E2. apply lit_plain; auto; lia.
    + apply lit_plain; auto; lia.
  - rewrite <- !app_assoc. destruct (show_hex_reads 97%N (or_intror eq_refl) c) as (HF & Hv & Hne & _).
    apply lit_code; assumption.
Qed.
Lemma escapes_read : forall plain q s, literal q (flat_map (escape plain q) s) s.
Proof. intros plain q s. induction s as [|c s IH]; cbn [flat_map]; [constructor|]. apply escape_reads. exact IH. Qed.
Lemma debug_text_reads : forall plain s, exists w, debug_text plain s = [34%N] ++ w ++ [34%N] /\ literal 34 w s.
Proof. intros plain s. exists (flat_map (escape plain 34) s). split; [reflexivity|apply escapes_read]. Qed.
Lemma debug_char_reads : forall plain c, exists w, debug_char plain c = [39%N] ++ w ++ [39%N] /\ literal 39 w [c].
Proof.
  intros plain c. exists (escape plain 39 c). split; [reflexivity|].
  rewrite <- (app_nil_r (escape plain 39 c)). apply escape_reads. constructor.
Qed.
Lemma show_N_reads : forall n, decimal (show_N n) n.
Proof.
  intros n. destruct (show_N_spec n) as (Hne & HF & Hv). repeat split; [exact Hne|exact HF|].
  rewrite <- Hv at 2. unfold numeral. generalize 0%N. clear. induction (show_N n) as [|c s IH]; intros a; [reflexivity|]. cbn [place_value numeral_from].
  rewrite (N.mul_comm a 10). apply IH.
Qed.

(** The literal determines what it means, and where it ends. *)
Lemma code_run : forall (P : N -> Prop) x y c a b, Forall P x -> Forall P y -> ~ P c -> x ++ [c] ++ a = y ++ [c] ++ b -> x = y /\ a = b.
Proof. intros P x y c a b Hx Hy Hc E. cbn [app] in E. destruct (run_split P x y c c a b Hx Hy Hc Hc E) as (K & _ & K'). auto. Qed.
Lemma literal_ends : forall q, (q = 34 \/ q = 39)%N -> forall w s w' s' a b, literal q w s -> literal q w' s' -> w ++ q :: a = w' ++ q :: b -> w = w' /\ s = s' /\ a = b.
Proof.
  intros q Hq w s w' s' a b H. revert w' s'. induction H as [|c w s H1 H2 H3 H4 Hl IH|x c w s Hx Hl IH|h c w s Hn Hh Hc Hl IH]; intros w' s' H' E;
    inversion H' as [|c' w2 s2 K1 K2 K3 K4 Kl|x' c' w2 s2 Kx Kl|h' c' w2 s2 Kn Kh Kc Kl]; subst w' s'; cbn [app] in E.
  - injection E as E. auto.
  - injection E as E _. congruence.
  - injection E as E _. destruct Hq as [-> | ->]; discriminate.
  - injection E as E _. destruct Hq as [-> | ->]; discriminate.
  - injection E as E _. congruence.
  - injection E as -> E. destruct (IH _ _ Kl E) as (-> & -> & ->). auto.
  - injection E as E _. contradiction.
  - injection E as E _. contradiction.
  - injection E as E _. destruct Hq as [-> | ->]; discriminate.
  - injection E as E _. symmetry in E. contradiction.
  - injection E as <- E. destruct (IH _ _ Kl E) as (-> & -> & ->). cbn in Hx, Kx.
    assert (c = c') as ->; [|auto].
    destruct Hq as [-> | ->]; repeat (destruct Hx as [Hx|Hx]); repeat (destruct Kx as [Kx|Kx]); try contradiction; congruence.
  - injection E as -> _. exfalso. cbn in Hx. destruct Hq as [-> | ->]; repeat (destruct Hx as [Hx|Hx]); try contradiction; discriminate Hx.
  - injection E as E _. destruct Hq as [-> | ->]; discriminate.
  - injection E as E _. symmetry in E. contradiction.
  - injection E as <- _. exfalso. cbn in Kx. destruct Hq as [-> | ->]; repeat (destruct Kx as [Kx|Kx]); try contradiction; discriminate Kx.
  - injection E as E. rewrite <- !app_assoc in E.
    apply (code_run (fun d => 48 <= d <= 57 \/ 97 <= d <= 102)%N) in E as (-> & E); [|exact Hh|exact Kh|lia].
    destruct (IH _ _ Kl E) as (-> & -> & ->). subst. auto.
Qed.
