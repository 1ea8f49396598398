(** Properties C19-C22: building a [Syntax] and looking rules up. *)
From Coq Require Import String List NArith Arith Bool.
From Verif Require Import Base Ident Tokenizer Ast Lex Syntax SpecText SpecTree SpecSyntax TextFacts TreeFacts SyntaxFacts.
Import ListNotations.
Open Scope nat_scope.

Definition txt := of_string.
Definition rules_of (s : str) : list rule := match parse_str [] s with Ok rs => rs | _ => [] end.

(** C19: a duplicate is reported exactly for the first rule that repeats an earlier
    name, with the position of that earlier rule. *)
Theorem C19_duplicate_error : forall rs l id ln cn,
  new_syntax rs = Err (Error_ l (MDuplicate id ln cn)) <->
  exists r d, first_repeat rs r d /\
    l = r_loc r /\ id = r_id r /\ ln = l_lines (r_loc d) /\ cn = l_columns (r_loc d).
Proof. exact duplicate_iff. Qed.
Print Assumptions C19_duplicate_error.
(** Nothing but duplicates and undefined references is an error. *)
Theorem C19_only_errors : forall rs e, new_syntax rs = Err e ->
  exists l, (exists id ln cn, e = Error_ l (MDuplicate id ln cn)) \/
            (exists id, e = Error_ l (MUndefinedMeta id)).
Proof. exact only_errors. Qed.
Print Assumptions C19_only_errors.
Example C19_case :
  new_syntax (rules_of (txt "a b='x';c='y';ab='z';c=;")) =
  Err (Error_ (Loc [] 1 15) (MDuplicate (txt "ab") 1 1)).
Proof. vm_compute. reflexivity. Qed.

(** C20 fails below the top level of a definition. *)
Theorem C20_no_undefined_reference_refuted : exists s rs sy r l id,
  parse_str [] s = Ok rs /\ new_syntax rs = Ok sy /\ In r rs /\
  refers_deep r l id /\ ~ defined rs id.
Proof.
  pose (t := txt "a=(b);").
  exists t, (rules_of t), (Syntax_ [(txt "a", txt "a")] [(txt "a", 0)] (rules_of t)).
  exists (Rule (Loc [] 1 1) (txt "a")
    [[Term (Factor 1 (PGrouped (Loc [] 1 3) [[Term (Factor 1 (PMeta (Loc [] 1 4) (txt "b"))) None]])) None]]).
  exists (Loc [] 1 4), (txt "b").
  split; [vm_compute; reflexivity|]. split; [vm_compute; reflexivity|]. split; [vm_compute; auto|]. split.
  - eapply inside_deeper; [right; right; reflexivity|left; reflexivity|left; reflexivity|].
    left. eapply inside_deeper; [right; right; reflexivity|left; reflexivity|left; reflexivity|].
    left. apply inside_here.
  - intros (r & Hr & Hs). apply same_name_keyed in Hs. vm_compute in Hr. destruct Hr as [<-|[]].
    vm_compute in Hs. discriminate.
Qed.
Print Assumptions C20_no_undefined_reference_refuted.
(** What holds: acceptance means canonical, distinct names, and every reference made
    directly in a definition (as factor or exception) is defined. *)
Theorem C20_accepted_iff : forall rs, (exists s, new_syntax rs = Ok s) <->
  Forall (fun r => canonical (r_id r)) rs /\ no_repeat rs /\
  (forall r l id, In r rs -> refers r l id -> defined rs id).
Proof. exact accepted_iff. Qed.
Print Assumptions C20_accepted_iff.
Theorem C20_undefined_error : forall rs l id,
  new_syntax rs = Err (Error_ l (MUndefinedMeta id)) ->
  exists r, In r rs /\ refers r l id /\ ~ defined rs id.
Proof. exact undefined_error. Qed.
Print Assumptions C20_undefined_error.
Example C20_case :
  (exists s, new_syntax (rules_of (txt "a=b,2*c d-b;b=;cd='x';")) = Ok s) /\
  new_syntax (rules_of (txt "a=b,2*c d-e;b=;cd='x';")) =
  Err (Error_ (Loc [] 1 11) (MUndefinedMeta (txt "e"))).
Proof. vm_compute. split; [eexists|]; reflexivity. Qed.

(** C21: rules come back in order; a lookup finds the only rule of that name. *)
Theorem C21_lookup_faithful : forall rs s, new_syntax rs = Ok s ->
  sy_rules s = rs /\ (forall i, syntax_rule s i = nth_error rs i) /\
  forall q, match get_syntax_rule s q with
  | Ok (Some r) => canonical_name s q = Some (r_id r) /\ exists i, nth_error rs i = Some r /\
      forall j r', nth_error rs j = Some r' -> (same_name q (r_id r') <-> j = i)
  | Ok None => canonical_name s q = None /\ ~ defined rs q
  | _ => False
  end.
Proof. exact lookup_faithful. Qed.
Print Assumptions C21_lookup_faithful.
Example C21_case : match new_syntax (rules_of (txt "a='x';b  c=a;")) with
  | Ok s => canonical_name s (txt " bc") = Some (txt "b c") /\ canonical_name s (txt "bd") = None /\
      get_syntax_rule s (txt " b c ") = Ok (nth_error (rules_of (txt "a='x';b  c=a;")) 1)
  | _ => False
  end.
Proof. vm_compute. auto. Qed.

(** C22: rules that were lexed never make [Syntax::new] panic. *)
Theorem C22_new_never_panics : forall name s rs p, parse_str name s = Ok rs ->
  new_syntax rs <> Panic p /\ new_syntax rs <> OutOfFuel.
Proof. exact lexed_no_panic. Qed.
Print Assumptions C22_new_never_panics.
(** Other rules can: the assertion on the canonical name is real. *)
Example C22_case : (exists s, new_syntax (rules_of (txt " a  b = a b ;")) = Ok s) /\
  new_syntax [Rule (Loc [] 1 1) (txt "a  b") []] = Panic PAssert.
Proof. vm_compute. split; [eexists|]; reflexivity. Qed.
