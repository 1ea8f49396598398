(** Property C96: whether a syntax is left-recursive can be computed, and so can whether all
    its parses return (by C37, where it is not). *)
From Coq Require Import String List NArith Arith Bool Lia Relations.
From Verif Require Import Base Ident Tokenizer Ast Lex Syntax Io Graph Machine SpecText SpecSyntax SpecIo TextFacts SyntaxFacts IoFacts SpecParse SpecMachine SpecEvents SpecTotal Pure PureFacts ParseFacts CodeFacts RunFacts RunComplete EvFacts MachineFacts TotalFacts LLCheck DecideLeft PropSyntax PropParse PropEvents PropTotal PropDepth PropLL.
Import ListNotations.
Open Scope nat_scope.

(** What the check has to be told about scanners. *)
Definition described (scans : location -> str -> bool * list str) (cfg : config) : Prop :=
  (forall l c, fst (scans l c) = true <-> exists s e, scanned (cfg l c) l s (SMatch s e)) /\
  (forall l c id, In id (snd (scans l c)) <-> exists s s', scanned (cfg l c) l s (SForward id s')).
Theorem C96_decided : forall scans rs cfg, described scans cfg -> no_repeat rs ->
  (left_rules scans rs = true <-> exists r, In r rs /\ left_recursive rs cfg r).
Proof. intros scans rs cfg (H1 & H2) Hu. apply left_rules_exact; assumption. Qed.
Print Assumptions C96_decided.
Theorem C96_rule : forall scans rs cfg r, described scans cfg -> no_repeat rs -> In r rs ->
  (left_rule scans rs r = true <-> left_recursive rs cfg r).
Proof. intros scans rs cfg r (H1 & H2) Hu. apply left_rule_exact; assumption. Qed.
Print Assumptions C96_rule.
Theorem C96_returns : forall scans rs cfg g id m debug rd, described scans cfg -> parser_for rs cfg g id m ->
  reader rd -> ending_of rd = None -> left_rules scans rs = false ->
  exists f0, forall fuel, f0 <= fuel -> fst (parser_parse debug g fuel m rd) <> OutOfFuel.
Proof.
  intros scans rs cfg g id m debug rd (H1 & H2) Hp Hr He Hl. apply (parse_ends rs cfg g id m debug rd Hp Hr He).
  intros r Hin K. rewrite (proj2 (left_rules_exact scans rs cfg H1 H2 (parser_unique _ _ _ _ _ Hp)) (ex_intro _ r (conj Hin K))) in Hl. discriminate.
Qed.
Print Assumptions C96_returns.

(** The scanners of the library other than regular expressions describe themselves. *)
Definition countable (sc : scanner) : Prop := match sc with ScDefault _ | ScChars _ _ _ => True | _ => False end.
Definition self_described (cfg : config) (l : location) (c : str) : bool * list str :=
  match cfg l c with
  | ScChars _ (Some m) _ => (N.eqb m 0, [])
  | ScDefault _ | ScChars _ None _ => (true, [])
  | _ => (false, [])
  end.
Lemma self_described_ok : forall cfg, (forall l c, countable (cfg l c)) -> described (self_described cfg) cfg.
Proof.
  intros cfg Hc. split.
  - intros l c. unfold self_described. specialize (Hc l c). destruct (cfg l c) as [d|pred min max|re find|sym prog]; try contradiction.
    + split; [|reflexivity]. intros _. exists (Pst [] l), []. apply sn_default.
    + assert (K : (exists m, min = Some m /\ m <> 0%N) \/ ~ too_short min []).
      { destruct min as [m|]; [|right; intros (m & E & _); discriminate]. destruct (N.eqb_spec m 0); [right; intros (m' & E & K); injection E as <-; cbn in K; lia|left; eauto]. }
      split.
      * intros E. exists (Pst [] l), [EvToken l l []]. apply (sn_chars pred min max l (Pst [] l) [] (Pst [] l)).
        { split; [apply goes_nil|]. split; [constructor|]. split; [intros m _; cbn; lia|left; reflexivity]. }
        { intros (m & -> & Hlt). cbn in E. apply N.eqb_eq in E. subst m. cbn in Hlt. lia. }
      * intros (s & e & H). inversion H; subst.
        match goal with X : longest_run _ _ _ _ _ |- _ => destruct X as (Hg & _) end. pose proof (goes_word _ _ _ _ Hg (goes_nil _)); subst.
        destruct min as [m|]; [|reflexivity]. cbn. destruct (N.eqb_spec m 0); [reflexivity|]. exfalso. match goal with X : ~ too_short _ _ |- _ => apply X end. exists m. split; [reflexivity|]. cbn. lia.
  - intros l c id. unfold self_described. specialize (Hc l c). split.
    + intros H. exfalso. destruct (cfg l c) as [d|pred [m|] max|re find|sym prog]; exact H.
    + intros (s & s' & H). destruct (cfg l c); try contradiction; inversion H.
Qed.

Theorem C96_library : forall rs cfg g id m debug rd, parser_for rs cfg g id m -> (forall l c, countable (cfg l c)) ->
  (left_rules (self_described cfg) rs = true <-> exists r, In r rs /\ left_recursive rs cfg r) /\
  (reader rd -> ending_of rd = None -> left_rules (self_described cfg) rs = false ->
   exists f0, forall fuel, f0 <= fuel -> fst (parser_parse debug g fuel m rd) <> OutOfFuel).
Proof.
  intros rs cfg g id m debug rd Hp Hc. pose proof (self_described_ok cfg Hc) as D. split.
  - apply C96_decided; [exact D|exact (parser_unique _ _ _ _ _ Hp)].
  - intros Hr He Hl. eapply C96_returns; eauto.
Qed.
Print Assumptions C96_library.
(** The converse does not hold: a left-recursive rule may never come to be tried. *)
Definition idle_left : str := txt "S=|S,'a';".
Lemma idle_means : exists r l1 l2 l3, rules_of idle_left = [r] /\ r_id r = [83%N] /\
  r_defs r = [[Term (Factor 1 (PEmpty l1)) None]; [Term (Factor 1 (PMeta l2 [83%N])) None; Term (Factor 1 (PTerminal l3 [97%N])) None]].
Proof. vm_compute. eexists _, _, _, _. repeat (split; [reflexivity|]). reflexivity. Qed.
Theorem C96_converse_refuted : exists rs cfg g id m, parser_for rs cfg g id m /\
  left_rules (self_described cfg) rs = true /\
  forall debug rd, reader rd -> ending_of rd = None -> exists f0, forall fuel, f0 <= fuel -> fst (parser_parse debug g fuel m rd) <> OutOfFuel.
Proof.
  destruct (prepare default_config idle_left (txt "S")) as [(g & m)|] eqn:E; [|vm_compute in E; discriminate].
  pose proof (prepare_ok _ _ _ _ _ E) as Hp. exists (rules_of idle_left), default_config, g, (txt "S"), m. split; [exact Hp|]. split; [vm_compute; reflexivity|].
  intros debug rd Hr He. destruct (parser_rule _ _ _ _ _ Hp) as (r & Hn & _). destruct idle_means as (r2 & l1 & l2 & l3 & Hrs & Hid & Hd).
  assert (Er : r = r2) by (pose proof (proj1 Hn) as Hin; rewrite Hrs in Hin; destruct Hin as [<-|[]]; reflexivity). subst r2.
  assert (Hm : exists raw, means (rules_of idle_left) default_config (txt "S") (stand rd) (Match (stand rd) raw)).
  { eexists. exists r. split; [exact Hn|]. eapply ev_ref; [split; [exact (proj1 Hn)|apply same_name_keyed; reflexivity]|]. rewrite Hd. apply ev_defs, ev_alts_first.
    eapply seq_more; [reflexivity|apply ev_term_plain, ev_factor_one, ev_empty|apply ev_seq_nil]. }
  destruct Hm as (raw & Hm). destruct (parse_complete_api _ _ g _ m debug rd _ Hp Hr He Hm) as (f0 & Hf). exists f0. intros fuel Hle. specialize (Hf fuel Hle). cbv iota beta in Hf.
  destruct (p_rest (stand rd)); rewrite Hf; [|discriminate]. match goal with |- (if ?b then _ else _) <> _ => destruct b; discriminate end.
Qed.
Print Assumptions C96_converse_refuted.

(** Rules that call one another in a circle, but only after a character; the same with the
    character made optional; and through an exception; through a scanner that forwards. *)
Example C96_case : (forall l c, countable (number_config l c)) /\ left_rules (self_described number_config) (rules_of calc) = false.
Proof. split; [|vm_compute; reflexivity]. intros l c. unfold number_config. destruct (digits c) as [[? ?]|]; exact I. Qed.
Definition circle : str := txt "A=['x'],B|'y';B={'z'},C;C='(',A,')'|D,A;D='n'-('n',B)|;".
Example C96_circle : map (fun r => (r_id r, left_rule (self_described default_config) (rules_of circle) r)) (rules_of circle) =
  [(txt "A", true); (txt "B", true); (txt "C", true); (txt "D", false)].
Proof. vm_compute. reflexivity. Qed.
Definition excepted : str := txt "A='x'-B;B=C;C=2*['q'],A;".
Example C96_excepted : map (fun r => (r_id r, left_rule (self_described default_config) (rules_of excepted) r)) (rules_of excepted) =
  [(txt "A", true); (txt "B", true); (txt "C", true)].
Proof. vm_compute. reflexivity. Qed.
Definition to_a (l : location) (c : str) : bool * list str := (false, [txt "A"]).
Example C96_forwarded : described to_a (forwarding (txt "A")) /\
  map (fun r => (r_id r, left_rule to_a (rules_of (txt "A='x'|B;B=? f ?,'y';")) r)) (rules_of (txt "A='x'|B;B=? f ?,'y';")) =
  [(txt "A", true); (txt "B", true)].
Proof.
  split; [|vm_compute; reflexivity]. split.
  - intros l c. split; [discriminate|]. intros (s & e & H). inversion H; subst. match goal with X : programmed _ _ _ _ |- _ => inversion X end.
  - intros l c id. split.
    + intros [<-|[]]. exists (Pst [] l), (Pst [] l). apply sn_user. apply (pg_ret [] (RForward (txt "A"))).
    + intros (s & s' & H). inversion H; subst. match goal with X : programmed _ _ _ _ |- _ => inversion X; subst end. left. reflexivity.
Qed.
