(** A check that every construct of the rules has a word.

    Nothing here is taken from the code: it is a computation which, where it answers [true],
    spares proving [productive] (SpecDeriv.v) by hand. *)
From Coq Require Import String List NArith Arith Bool Lia.
From Verif Require Import Base Ident Ast Graph SpecText SpecSyntax TextFacts SyntaxFacts SpecParse SpecEvents SpecLL SpecDeriv ParseFacts EvFacts LLCheck.
Import ListNotations.
Open Scope nat_scope.

Section Check.
(** The special sequences that are understood, as in LLCheck.v. *)
Variable class : str -> option (ranges * bool).
Definition filled_class (c : str) : bool :=
  match class c with Some (rs, _) => existsb (fun r => N.leb (fst r) (snd r)) rs | None => false end.
Definition known_id (known : list str) (id : str) : bool := existsb (fun k => str_eqb k (keyed id)) known.
(** There is a word, if the rules [known] have one. *)
Fixpoint yields_p (known : list str) (p : primary) : bool :=
  let yields_t (t : term_ primary) := N.eqb (f_rep (t_factor t)) 0 || yields_p known (f_prim (t_factor t)) in
  match p with
  | PTerminal _ _ | PEmpty _ | POptional _ _ | PRepeated _ _ => true
  | PSpecial _ c => filled_class c
  | PMeta _ id => known_id known id
  | PGrouped _ d => existsb (forallb yields_t) d
  end.
Definition yields_d (known : list str) (d : definition_list) : bool := yields_p known (PGrouped (loc_new []) d).
(** ... and so has everything in it. *)
Fixpoint all_p (known : list str) (p : primary) : bool :=
  let all_d (d : list (list (term_ primary))) := match d with [] => false | _ => forallb (forallb (fun t => all_p known (f_prim (t_factor t)))) d end in
  match p with
  | PTerminal _ _ | PEmpty _ => true
  | PSpecial _ c => filled_class c
  | PMeta _ id => known_id known id
  | POptional _ d | PRepeated _ d | PGrouped _ d => all_d d
  end.
Definition all_t (known : list str) (t : term) : bool := all_p known (f_prim (t_factor t)).
Definition all_d (known : list str) (d : definition_list) : bool := match d with [] => false | _ => forallb (forallb (all_t known)) d end.
Fixpoint known_after (n : nat) (rules : list rule) : list str :=
  match n with 0 => [] | S n => map (fun r => keyed (r_id r)) (filter (fun r => yields_d (known_after n rules) (r_defs r)) rules) end.
Definition fruitful (rules : list rule) : bool := forallb (fun r => all_d (known_after (length rules) rules) (r_defs r)) rules.

Variable rules : list rule.
Variable cfg : config.
Hypothesis Hclass : forall l c rs many, class c = Some (rs, many) -> cfg l c = ScChars (has rs) (Some 1%N) (if many then None else Some 1%N).
Notation lang := (lang cfg rules).
Lemma special_yields : forall l c, filled_class c = true -> exists w, lang (NPrim (PSpecial l c)) w.
Proof.
  intros l c H. unfold filled_class in H. destruct (class c) as [[rs many]|] eqn:Ec; [|discriminate]. apply existsb_exists in H as ((a, b) & Hin & Hab). cbn in Hab. apply N.leb_le in Hab.
  assert (Hh : has rs a = true) by (apply existsb_exists; exists (a, b); split; [exact Hin|]; cbn; rewrite N.leb_refl; apply N.leb_le; exact Hab).
  exists [a]. set (s := Pst [a] (loc_new [])). set (s' := Pst [] (loc_push_str (loc_new []) [a])).
  assert (Hg : goes s [a] s') by (apply goes_push; split; reflexivity).
  eapply (lg_special cfg rules l c s [a] s'); [|exact Hg]. rewrite (Hclass l c rs many Ec). apply (sn_chars _ _ _ l s [a] s').
  - split; [exact Hg|]. split; [constructor; [exact Hh|constructor]|]. split; [|left; reflexivity]. intros m Hm. destruct many; [discriminate|]. injection Hm as <-. cbn. lia.
  - intros (m & Hm & Hlt). injection Hm as <-. cbn in Hlt. lia.
Qed.
Definition known_ok (known : list str) : Prop := forall id, known_id known id = true -> exists r w, names rules id r /\ lang (NDefs (r_defs r)) w.
Lemma times_word : forall p k, (N.eqb k 0 = true \/ exists w, lang (NPrim p) w) -> exists w, lang (NFactor (Factor k p)) w.
Proof.
  intros p k [H|(v & Hv)]; [apply N.eqb_eq in H; subst; exists []; apply lg_zero|]. rewrite <- (N2Nat.id k).
  induction (N.to_nat k) as [|n (u & Hu)]; [exists []; apply lg_zero|]. exists (v ++ u). replace (N.of_nat (S n)) with (N.succ (N.of_nat n)) by lia. apply lg_times; assumption.
Qed.
Lemma yields_word : forall known, known_ok known -> forall p, yields_p known p = true -> exists w, lang (NPrim p) w.
Proof.
  intros known Hk. fix IH 1. intros p H. destruct p as [l d|l d|l d|l id|l w|l c|l].
  - exists []. apply lg_none.
  - exists []. apply lg_stop.
  - cbn in H. assert (K : exists w, lang (NDefs d) w).
    { induction d as [|ts d IHd]; [discriminate|]. cbn in H. apply orb_prop in H as [H|H].
      - clear IHd. assert (K : exists w, lang (NSeq ts) w).
        { induction ts as [|[[n q] e] ts IHts]; [exists []; apply lg_nil|]. cbn in H. apply andb_prop in H as (H1 & H2). destruct (IHts H2) as (w2 & Hw2).
          destruct (times_word q n) as (w1 & Hw1); [apply orb_prop in H1 as [H1|H1]; [left; exact H1|right; exact (IH q H1)]|].
          exists (w1 ++ w2). apply lg_seq; [apply lg_term; exact Hw1|exact Hw2]. }
        destruct K as (w & Hw). exists w. eapply lg_defs; [left; reflexivity|exact Hw].
      - destruct (IHd H) as (w & Hw). exists w. inversion Hw; subst. eapply lg_defs; [right; eassumption|assumption]. }
    destruct K as (w & Hw). exists w. apply lg_group. exact Hw.
  - destruct (Hk id H) as (r & w & Hr & Hw). exists w. eapply lg_meta; eauto.
  - exists w. apply lg_terminal.
  - apply special_yields. exact H.
  - exists []. apply lg_empty.
Qed.
Lemma yields_defs : forall known, known_ok known -> forall d, yields_d known d = true -> exists w, lang (NDefs d) w.
Proof. intros known Hk d H. destruct (yields_word known Hk _ H) as (w & Hw). exists w. inversion Hw; subst. assumption. Qed.
Lemma known_after_ok : forall n, known_ok (known_after n rules).
Proof.
  induction n as [|n IH]; intros id H; [discriminate|]. unfold known_id in H. apply existsb_exists in H as (k & Hk & Ek). cbn in Hk. apply in_map_iff in Hk as (r & <- & Hr). apply filter_In in Hr as (Hr & Hy).
  destruct (yields_defs _ IH _ Hy) as (w & Hw). exists r, w. split; [split; [exact Hr|]|exact Hw]. apply same_name_keyed. apply str_eqb_eq in Ek. congruence.
Qed.
Notation known := (known_after (length rules) rules).
Lemma all_word : forall p, all_p known p = true -> exists w, lang (NPrim p) w.
Proof.
  fix IH 1. intros p H. destruct p as [l d|l d|l d|l id|l w|l c|l].
  - exists []. apply lg_none.
  - exists []. apply lg_stop.
  - cbn in H. destruct d as [|ts d]; [discriminate|]. apply andb_prop in H as (H & _).
    assert (K : exists w, lang (NSeq ts) w).
    { induction ts as [|[[n q] e] ts IHts]; [exists []; apply lg_nil|]. cbn in H. apply andb_prop in H as (H1 & H2). destruct (IHts H2) as (w2 & Hw2).
      destruct (times_word q n) as (w1 & Hw1); [right; exact (IH q H1)|]. exists (w1 ++ w2). apply lg_seq; [apply lg_term; exact Hw1|exact Hw2]. }
    destruct K as (w & Hw). exists w. apply lg_group. eapply lg_defs; [left; reflexivity|exact Hw].
  - destruct (known_after_ok _ id H) as (r & w & Hr & Hw). exists w. eapply lg_meta; eauto.
  - exists w. apply lg_terminal.
  - apply special_yields. exact H.
  - exists []. apply lg_empty.
Qed.
Definition all_n (n : node) : bool :=
  match n with
  | NPrim p => all_p known p | NFactor f => all_p known (f_prim f) | NTerm t => all_t known t
  | NSeq ts => forallb (all_t known) ts | NDefs d => all_d known d | _ => false
  end.
Lemma part_all : fruitful rules = true -> forall n, part rules n -> all_n n = true.
Proof.
  intros Hf n H. induction H; cbn [all_n] in *.
  - unfold fruitful in Hf. rewrite forallb_forall in Hf. exact (Hf r H).
  - unfold all_d in IHpart. destruct ds as [|d0 ds]; [discriminate|]. rewrite forallb_forall in IHpart. exact (IHpart d H0).
  - cbn in IHpart. apply andb_prop in IHpart as (K & _). exact K.
  - cbn in IHpart. apply andb_prop in IHpart as (_ & K). exact K.
  - exact IHpart.
  - exact IHpart.
  - exact IHpart.
  - exact IHpart.
  - exact IHpart.
Qed.
Lemma seq_word : forall ts, forallb (all_t known) ts = true -> exists w, lang (NSeq ts) w.
Proof.
  induction ts as [|[[n q] e] ts IHts]; intros H; [exists []; apply lg_nil|]. cbn in H. apply andb_prop in H as (H1 & H2). destruct (IHts H2) as (w2 & Hw2).
  destruct (times_word q n) as (w1 & Hw1); [right; exact (all_word q H1)|]. exists (w1 ++ w2). apply lg_seq; [apply lg_term; exact Hw1|exact Hw2].
Qed.
Lemma fruitful_productive : fruitful rules = true -> productive rules cfg.
Proof.
  intros Hf n H. pose proof (part_all Hf n H) as K. destruct n; cbn [all_n] in K; try discriminate.
  - destruct d as [|ts d]; [discriminate|]. cbn in K. apply andb_prop in K as (K & _). destruct (seq_word _ K) as (w & Hw). exists w. eapply lg_defs; [left; reflexivity|exact Hw].
  - exact (seq_word _ K).
  - destruct t as [[k p] e]. destruct (times_word p k (or_intror (all_word _ K))) as (w & Hw). exists w. apply lg_term. exact Hw.
  - destruct f as [k p]. apply times_word. right. exact (all_word _ K).
  - exact (all_word _ K).
Qed.
End Check.
