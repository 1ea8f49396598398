(** Property C106: rules that grow, by alternatives and by parts that can be left out, keep the
    texts they had and the events of them, as long as no choice has to be undone (C84).

    [grown_rules] and [seen] are in SpecGrow.v, [determinate] in SpecExact.v, [distinct] in
    SpecOnly.v, [solid] in SpecDeriv.v. *)
From Coq Require Import String List NArith Arith Bool Lia.
From Verif Require Import Base Ident Tokenizer Ast Lex Syntax Io Graph Machine SpecText SpecSyntax SpecIo TextFacts SyntaxFacts IoFacts SpecParse SpecMachine SpecEvents SpecTotal SpecLL SpecExact SpecDeriv SpecOnly Pure ParseFacts CodeFacts EvFacts EventFacts MachineFacts LangFacts TotalFacts LLFacts LLCheck ExactFacts ExactUse ExactCheck DerivFacts OnlyFacts TidyCheck PropSyntax PropParse PropEvents PropTotal PropLL PropDeriv PropExact PropOnly SpecGrow GrowFacts.
Import ListNotations.
Open Scope nat_scope.

(** Every derivation of a text is one with the new rules. *)
Theorem C106_derivations : forall old new cfg cfg' id s raw s', grown_rules old new cfg cfg' ->
  xderivation old cfg id s raw s' -> exists raw', xderivation new cfg' id s raw' s' /\ map seen raw' = map seen raw.
Proof. intros old new cfg cfg' id s raw s' Hg. exact (derivation_kept old new cfg cfg' Hg id s raw s'). Qed.
Print Assumptions C106_derivations.

Lemma text_derived : forall rs cfg id s raw s', xderivation rs cfg id s raw s' -> p_rest s' = [] -> text_of rs cfg id (p_rest s).
Proof.
  intros rs cfg id s raw s' (r & e & Hn & Hd & _) E. destruct (xderives_xlang _ _ _ _ _ _ Hd) as (w & (Hw & _) & Hl).
  exists r. split; [exact Hn|]. rewrite Hw, E, app_nil_r. exact Hl.
Qed.
Lemma new_pf : forall old new cfg cfg' g' id m' debug' rd raw s', parser_for new cfg' g' id m' -> reader rd ->
  ending_of rd = None -> grown_rules old new cfg cfg' -> determinate new cfg' id -> distinct new cfg' id ->
  nesting_scanners cfg' -> spelling_scanners cfg' -> (N.of_nat (length (unread rd)) <= max_count)%N ->
  xderivation old cfg id (stand rd) raw s' -> p_rest s' = [] ->
  exists f0, forall fuel', f0 <= fuel' -> exists evs', fst (parser_parse debug' g' fuel' m' rd) = Ok evs' /\
    (Forall (fun r => tidy (NDefs (r_defs r))) new -> map seen (solid evs') = map seen (solid raw)).
Proof.
  intros old new cfg cfg' g' id m' debug' rd raw s' Hp Hr He Hg Hd Hx Hn Hsp Hlen Ho Hs.
  destruct (derivation_kept old new cfg cfg' Hg _ _ _ _ Ho) as (raw' & Hw & E).
  destruct (C84_exactly_the_language _ _ _ _ _ debug' _ Hp Hr He Hd Hn Hlen) as (f0 & K). exists f0. intros fuel' Hf.
  destruct (K fuel' Hf) as [(evs' & H & _)|(e & _ & H)]; [|exfalso; exact (H (text_derived _ _ _ _ _ _ Hw Hs))].
  exists evs'. split; [exact H|]. intros Ht. destruct (C101_events _ _ _ _ _ _ _ _ _ Hp Hr Hd Hx Hn Hsp Hlen H) as (raw2 & s2 & _ & _ & T).
  destruct (T Ht) as (_ & U). rewrite (U _ _ Hw Hs). apply solid_seen. exact E.
Qed.
Lemma parses_pf : forall old new cfg cfg' g g' id m m' debug debug' fuel rd evs, parser_for old cfg g id m -> parser_for new cfg' g' id m' ->
  reader rd -> ending_of rd = None -> grown_rules old new cfg cfg' -> determinate old cfg id -> determinate new cfg' id ->
  distinct new cfg' id -> nesting_scanners cfg' -> spelling_scanners cfg' -> (N.of_nat (length (unread rd)) <= max_count)%N ->
  fst (parser_parse debug g fuel m rd) = Ok evs ->
  exists f0, forall fuel', f0 <= fuel' -> exists evs', fst (parser_parse debug' g' fuel' m' rd) = Ok evs' /\
    (Forall (fun r => tidy (NDefs (r_defs r))) old -> Forall (fun r => tidy (NDefs (r_defs r))) new ->
     map seen (solid evs') = map seen (solid evs)).
Proof.
  intros old new cfg cfg' g g' id m m' debug debug' fuel rd evs Hp Hp' Hr He Hg Hd Hd' Hx Hn Hsp Hlen H.
  destruct (events_pf _ _ _ _ _ _ _ _ _ Hp Hr Hd Hlen H) as (raw & s' & D & E & T).
  destruct (new_pf _ _ _ _ _ _ _ debug' _ _ _ Hp' Hr He Hg Hd' Hx Hn Hsp Hlen D E) as (f0 & K). exists f0. intros fuel' Hf.
  destruct (K fuel' Hf) as (evs' & H' & U). exists evs'. split; [exact H'|]. intros To Tn.
  rewrite (U Tn), (T To), <- filter_positions, solid_filter. reflexivity.
Qed.
(** What the old rules accept the new ones accept, with the same events, but for tokens without
    text, rules without tokens, and the places in the rules. *)
Theorem C106_parses : forall old new cfg cfg' g g' id m m' debug debug' fuel rd evs, parser_for old cfg g id m -> parser_for new cfg' g' id m' ->
  reader rd -> ending_of rd = None -> grown_rules old new cfg cfg' -> determinate old cfg id -> determinate new cfg' id ->
  distinct new cfg' id -> nesting_scanners cfg' -> spelling_scanners cfg' -> (N.of_nat (length (unread rd)) <= max_count)%N ->
  fst (parser_parse debug g fuel m rd) = Ok evs ->
  exists f0, forall fuel', f0 <= fuel' -> exists evs', fst (parser_parse debug' g' fuel' m' rd) = Ok evs' /\
    (Forall (fun r => tidy (NDefs (r_defs r))) old -> Forall (fun r => tidy (NDefs (r_defs r))) new ->
     map seen (solid evs') = map seen (solid evs)).
Proof. exact parses_pf. Qed.
Print Assumptions C106_parses.

(** Old rules without exceptions need not be such that no choice is undone. *)
Lemma plain_pf : forall old new cfg cfg' g g' id m m' debug debug' fuel rd evs, parser_for old cfg g id m -> parser_for new cfg' g' id m' ->
  reader rd -> ending_of rd = None -> grown_rules old new cfg cfg' -> no_forwarding cfg -> Forall (fun r => groups_last (NDefs (r_defs r))) old ->
  (forall f x, ~ part old (NTerm (Term f (Some x)))) -> determinate new cfg' id ->
  distinct new cfg' id -> nesting_scanners cfg' -> spelling_scanners cfg' -> (N.of_nat (length (unread rd)) <= max_count)%N ->
  fst (parser_parse debug g fuel m rd) = Ok evs ->
  exists f0, forall fuel', f0 <= fuel' -> exists evs', fst (parser_parse debug' g' fuel' m' rd) = Ok evs' /\
    (Forall (fun r => tidy (NDefs (r_defs r))) old -> Forall (fun r => tidy (NDefs (r_defs r))) new ->
     map seen (solid evs') = map seen (solid evs)).
Proof.
  intros old new cfg cfg' g g' id m m' debug debug' fuel rd evs Hp Hp' Hr He Hg Hf Hgl Hex Hd' Hx Hn Hsp Hlen H.
  destruct (C66_derivation _ _ _ _ _ _ _ _ _ Hp Hr Hf Hgl H) as (raw & (r & e & Hnm & D & ->) & T).
  destruct (parse_all_read _ _ _ _ _ _ Hr H) as (_ & Hu).
  assert (D2 : xderives old cfg (NDefs (r_defs r)) (stand rd) e (stand (snd (parser_parse debug g fuel m rd)))).
  { apply plain_derives; [exact Hex|exact D|]. apply pt_rule. exact (proj1 Hnm). }
  destruct (new_pf old new cfg cfg' g' id m' debug' rd _ _ Hp' Hr He Hg Hd' Hx Hn Hsp Hlen (ex_intro _ r (ex_intro _ e (conj Hnm (conj D2 eq_refl)))) Hu) as (f0 & K).
  exists f0. intros fuel' Hfu. destruct (K fuel' Hfu) as (evs' & H' & U). exists evs'. split; [exact H'|]. intros To Tn.
  rewrite (U Tn), (T To), <- filter_positions, solid_filter. reflexivity.
Qed.
Theorem C106_parses_plain : forall old new cfg cfg' g g' id m m' debug debug' fuel rd evs, parser_for old cfg g id m -> parser_for new cfg' g' id m' ->
  reader rd -> ending_of rd = None -> grown_rules old new cfg cfg' -> no_forwarding cfg -> Forall (fun r => groups_last (NDefs (r_defs r))) old ->
  (forall f x, ~ part old (NTerm (Term f (Some x)))) -> determinate new cfg' id ->
  distinct new cfg' id -> nesting_scanners cfg' -> spelling_scanners cfg' -> (N.of_nat (length (unread rd)) <= max_count)%N ->
  fst (parser_parse debug g fuel m rd) = Ok evs ->
  exists f0, forall fuel', f0 <= fuel' -> exists evs', fst (parser_parse debug' g' fuel' m' rd) = Ok evs' /\
    (Forall (fun r => tidy (NDefs (r_defs r))) old -> Forall (fun r => tidy (NDefs (r_defs r))) new ->
     map seen (solid evs') = map seen (solid evs)).
Proof. exact plain_pf. Qed.
Print Assumptions C106_parses_plain.

(** Whether rules grew can be computed, for scanners that depend on the content of the special
    sequence only ... *)
Theorem C106_checked : forall old new cfg cfg',
  (forall l l' c s s' e, scanned (cfg l c) l s (SMatch s' e) -> exists e', scanned (cfg' l' c) l' s (SMatch s' e') /\ map seen e' = map seen e) ->
  rules_grow old new = true -> grown_rules old new cfg cfg'.
Proof. exact rules_grow_ok. Qed.
Print Assumptions C106_checked.
(** ... as the scanners of the library do. *)
Lemma scanners_pf : forall (of_content : str -> scanner), (forall c, library_scanner (of_content c)) ->
  forall (l l' : location) c s s' e, scanned (of_content c) l s (SMatch s' e) ->
  exists e', scanned (of_content c) l' s (SMatch s' e') /\ map seen e' = map seen e.
Proof. intros k Hk l l' c s s' e. apply library_elsewhere. apply Hk. Qed.
Theorem C106_scanners : forall (of_content : str -> scanner), (forall c, library_scanner (of_content c)) ->
  forall (l l' : location) c s s' e, scanned (of_content c) l s (SMatch s' e) ->
  exists e', scanned (of_content c) l' s (SMatch s' e') /\ map seen e' = map seen e.
Proof. exact scanners_pf. Qed.
Print Assumptions C106_scanners.

(** The rules of PropExact.v, which have an exception, and rules they grew to: two choices got an
    alternative more, an option became a repetition, there is an optional part more and a rule. *)
Definition requoted : str := txt "D='!'|'.';S={'aa'|'ab'},'ac',[D],T,'/',{?c?-'/'},'/';T='for'|'fix',[D],T|'four',{S};".
Example C106_case : grown_rules (rules_of quoted) (rules_of requoted) each_config each_config /\
  determinate (rules_of quoted) each_config (txt "S") /\ determinate (rules_of requoted) each_config (txt "S") /\
  distinct (rules_of requoted) each_config (txt "S") /\
  Forall (fun r => tidy (NDefs (r_defs r))) (rules_of quoted) /\ Forall (fun r => tidy (NDefs (r_defs r))) (rules_of requoted).
Proof.
  assert (K : forall (l : location) c rs many, all_chars c = Some (rs, many) -> each_config l c = ScChars (has rs) (Some 1%N) (if many then None else Some 1%N)).
  { intros l c rs many H. unfold each_config. rewrite H. reflexivity. }
  assert (F : no_forwarding each_config) by apply (library_scanners _ each_library).
  split; [apply C106_checked; [|vm_compute; reflexivity]; exact (C106_scanners (each_config (loc_new [])) (each_library (loc_new [])))|].
  split; [exact (proj2 (proj2 C84_case))|].
  split; [apply (C84_checked 3 all_chars 12); [vm_compute; reflexivity|exact K|exact F]|].
  split; [apply (C101_checked 3 all_chars 12); [vm_compute; reflexivity|exact K|exact F]|].
  split; apply C101_tidy_checked; vm_compute; reflexivity.
Qed.
Example C106_events : exists evs evs', 
  parse_case each_config quoted (txt "S") true 1000 (text_reader (txt "ababacfourabacfor/x//ab'/")) = Some (Ok evs) /\
  parse_case each_config requoted (txt "S") true 1000 (text_reader (txt "ababacfourabacfor/x//ab'/")) = Some (Ok evs') /\
  evs <> evs' /\ map seen evs = map seen evs' /\ length (solid evs) = 23.
Proof. vm_compute. do 2 eexists. split; [reflexivity|]. split; [reflexivity|]. split; [discriminate|]. split; reflexivity. Qed.
(** Rules that lose something did not grow. *)
Example C106_not_grown : rules_grow (rules_of requoted) (rules_of quoted) = false /\
  rules_grow (rules_of (txt "S='a','b';")) (rules_of (txt "S='a';")) = false /\ rules_grow (rules_of (txt "S='a';")) (rules_of (txt "S='a','b';")) = false /\
  rules_grow (rules_of (txt "S=?c?;")) (rules_of (txt "S=?c?-'a';")) = false.
Proof. repeat split; vm_compute; reflexivity. Qed.
(** Where choices have to be undone, rules that grow may lose texts. *)
Example C106_condition_needed : forall old new w, In (old, new, w)
    [("S={A},'b';A='a';", "S={A},'b';A='a'|'b';", "ab"); ("S='a','b';", "S=['a'],'a','b';", "ab")]%string ->
  (exists evs, parse_case default_config (txt old) (txt "S") true 100 (text_reader (txt w)) = Some (Ok evs)) /\
  (exists e, parse_case default_config (txt new) (txt "S") true 100 (text_reader (txt w)) = Some (Err e)) /\
  rules_grow (rules_of (txt old)) (rules_of (txt new)) = true.
Proof.
  intros old new w [[= <- <- <-]|[[= <- <- <-]|[]]]; vm_compute; (split; [eexists; reflexivity|]); (split; [eexists; reflexivity|]); reflexivity.
Qed.
(** Rules without exceptions and what they grew to. *)
Definition listing : str := txt "S=A,{',',A};A='a'|'b','(',[S],')';".
Definition relisting : str := txt "S=A,{',',A},['.'];A='a',['!']|'c',A|'b','(',{S},')';".
Example C106_plain_case : grown_rules (rules_of listing) (rules_of relisting) default_config default_config /\
  no_forwarding default_config /\ Forall (fun r => groups_last (NDefs (r_defs r))) (rules_of listing) /\
  (forall f x, ~ part (rules_of listing) (NTerm (Term f (Some x)))) /\
  determinate (rules_of relisting) default_config (txt "S") /\ distinct (rules_of relisting) default_config (txt "S").
Proof.
  assert (L : library_config default_config) by (intros l c; exact I). assert (F : no_forwarding default_config) by apply (library_scanners _ L).
  split; [apply C106_checked; [|vm_compute; reflexivity]; exact (C106_scanners (default_config (loc_new [])) (L (loc_new [])))|].
  split; [exact F|]. split.
  - vm_compute. repeat (apply Forall_cons || apply Forall_nil);
    repeat match goal with |- groups_last (NSeq [_]) => apply gl_last | |- groups_last (NSeq (_ :: _)) => apply gl_seq
      | |- Forall _ (_ :: _) => apply Forall_cons | |- Forall _ [] => apply Forall_nil | |- _ = _ => reflexivity | |- _ => constructor end.
  - assert (P : predictive (rules_of listing) default_config (txt "S")) by (apply (C63_checked (fun _ => None)); [vm_compute; reflexivity|discriminate|exact F]).
    split; [exact (proj1 (proj1 (proj2 P)))|].
    split; [apply (C84_checked 1 (fun _ => None) 12)|apply (C101_checked 1 (fun _ => None) 12)]; try discriminate; try exact F; vm_compute; reflexivity.
Qed.
