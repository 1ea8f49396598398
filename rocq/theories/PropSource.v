(** Property C103: a [MarkableReader] over a [CharReader] of the user's.

    [MarkableReader::new] takes any [Box<dyn CharReader>].  OwnSource.v is [MarkableReader]
    over such a reader, [gives] (SpecSource.v) says that it gives a text.  Io.v and the
    properties of parsing (C24-C27, C30-...) have chunked sources in its place. *)
From Coq Require Import String List NArith Arith Bool Lia.
From Verif Require Import Base Ident Tokenizer Ast Lex Syntax Io Graph Machine OwnReader OwnSource SpecText SpecSyntax SpecIo SpecSource TextFacts SyntaxFacts IoFacts SpecParse SpecMachine Pure ParseFacts CodeFacts EvFacts MachineFacts OwnUse SourceFacts PropSyntax PropParse PropEvents.
Import ListNotations.
Open Scope nat_scope.

(** Every parse over every such reader is a parse over chunks of the text not given yet: the
    same result, the same buffer and marks afterwards, the same text left. *)
Theorem C103_parse : forall V give text ending at_, gives V text ending at_ give -> forall debug g fuel m v p ub, at_ v p ->
  exists cs v' p' ub' cs', concat cs = skipn p text /\
    own_parse (w_methods V give debug) debug g fuel m (Wrap V v ub) = (fst (parser_parse debug g fuel m (MR (Src cs ending) ub)), Wrap V v' ub') /\
    at_ v' p' /\ concat cs' = skipn p' text /\ snd (parser_parse debug g fuel m (MR (Src cs ending) ub)) = MR (Src cs' ending) ub'.
Proof. exact source_parse. Qed.
Print Assumptions C103_parse.

(** So is every sequence of calls of the methods of the reader. *)
Theorem C103_calls : forall V give text ending at_, gives V text ending at_ give -> forall debug os v p ub, at_ v p ->
  Forall (fun o => o <> ORead 0 /\ o <> OReadAll) os ->
  exists cs answers x r r', concat cs = skipn p text /\ own_calls (w_required V give debug) (w_methods V give debug) os (Wrap V v ub) = (answers, x, r) /\
    perform debug os (MR (Src cs ending) ub) = (answers, x, r').
Proof. exact source_history. Qed.
Print Assumptions C103_calls.

(** A new reader answers, in a release build, as a cursor over the text (C24). *)
Lemma own_cursor_pf : forall V give text ending at_, gives V text ending at_ give -> forall l0 os v, at_ v 0 -> Forall (fun o => o <> ORead 0 /\ o <> OReadAll) os ->
  exists answers r c, own_calls (w_required V give false) (w_methods V give false) os (w_new V l0 v) = (answers, None, r) /\ csteps text ending l0 (Cur 0 []) os answers c.
Proof.
  intros V give text ending at_ G l0 os v Hv Ho.
  destruct (source_history V give text ending at_ G false os v 0 (UB l0 [] 0 0 []) Hv Ho) as (cs & an & x & r & r' & Hc & E1 & E2). cbn [skipn] in Hc.
  destruct (rep_run _ _ _ false os _ _ (rep_new l0 cs ending)) as [(an' & r2 & c & A & B & _)|(dn & o & rest & an' & r2 & c & _ & _ & _ & Z & _)]; [|discriminate].
  unfold mr_new in A. rewrite A in E2. injection E2 as <- <- <-. exists an', r, c. split; [exact E1|]. rewrite <- Hc. exact B.
Qed.
Theorem C103_cursor : forall V give text ending at_, gives V text ending at_ give -> forall l0 os v, at_ v 0 -> Forall (fun o => o <> ORead 0 /\ o <> OReadAll) os ->
  exists answers r c, own_calls (w_required V give false) (w_methods V give false) os (w_new V l0 v) = (answers, None, r) /\ csteps text ending l0 (Cur 0 []) os answers c.
Proof. exact own_cursor_pf. Qed.
Print Assumptions C103_cursor.

(** How a reader cuts the text in pieces does not matter, nor does a failure at the end. *)
Lemma own_whole_pf : forall V give text ending at_, gives V text ending at_ give -> forall debug g fuel m l v p, at_ v p ->
  fst (own_parse (w_methods V give debug) debug g fuel m (w_new V l v)) = fst (parser_parse debug g fuel m (mr_new l (Src [skipn p text] ending))).
Proof.
  intros V give text ending at_ G debug g fuel m l v p Hv.
  destruct (source_parse V give text ending at_ G debug g fuel m v p (UB l [] 0 0 []) Hv) as (cs & v' & p' & ub' & cs' & Hc & E & _).
  unfold w_new. rewrite E. cbn [fst]. apply (parse_same debug g fuel m (mr_new l (Src cs ending)) (mr_new l (Src [skipn p text] ending))); [apply rd_new|apply rd_new| |reflexivity].
  unfold stand, unread. cbn. rewrite Hc, app_nil_r. reflexivity.
Qed.
Theorem C103_whole : forall V give text ending at_, gives V text ending at_ give -> forall debug g fuel m l v p, at_ v p ->
  fst (own_parse (w_methods V give debug) debug g fuel m (w_new V l v)) = fst (parser_parse debug g fuel m (mr_new l (Src [skipn p text] ending))).
Proof. exact own_whole_pf. Qed.
Print Assumptions C103_whole.

(** A [MarkableReader] is such a reader itself, with any marks standing: they can be put one over the
    other.  A failure is then wrapped twice.  ([rep] of IoFacts.v relates a reader to a cursor
    over its text; [rep_new]: it holds for a new one.) *)
Lemma nested_pf : forall text ending l0 marks, gives mreader text
  (match ending with Some e => Some (Error_ (loc_push_str l0 text) (MWrapped (e_loc e) (e_msg e))) | None => None end)
  (fun r p => rep text ending l0 r (Cur p marks)) (m_read_chars false).
Proof.
  intros text ending l0 marks r p n R Hn. pose proof (rep_read text ending l0 false n r _ R) as K. cbn [c_pos c_marks] in K.
  inversion K as [s rest r' H1 H2 H3 H4 H5 H6|r' H1 H2 H3 H4|r' H1 H2 H3 H4 H5|r' e H1 H2 H3 H4|r' H1]; subst; [| | | |discriminate].
  - left. exists s, r', rest. split; [reflexivity|]. split; [exact H3|]. split; [exact H2|]. split; [intros Z; contradiction|]. exact H4.
  - lia.
  - left. exists [], r', []. split; [reflexivity|]. split; [exact H1|]. split; [cbn; lia|]. split; [auto|]. cbn [length]. rewrite Nat.add_0_r. exact H3.
  - right. eexists. exists r'. split; [reflexivity|]. split; [|split; [exact H1|exact H3]]. unfold loc_at. cbn [c_pos]. f_equal. f_equal. f_equal.
    cbn [c_pos] in H1. rewrite <- (firstn_skipn p text) at 1. rewrite H1. apply app_nil_r.
Qed.
Theorem C103_nested : forall text ending l0 marks, gives mreader text
  (match ending with Some e => Some (Error_ (loc_push_str l0 text) (MWrapped (e_loc e) (e_msg e))) | None => None end)
  (fun r p => rep text ending l0 r (Cur p marks)) (m_read_chars false).
Proof. exact nested_pf. Qed.
Print Assumptions C103_nested.

(** A reader of one's own: as many characters as the number of the reads so far, and a
    failure at the end. *)
Definition swelling := (nat * str)%type.
Definition swell (e : error) (n : nat) (v : swelling) : res str * swelling :=
  match snd v with
  | [] => (Err e, v)
  | _ => let k := S (Nat.min (fst v) (n - 1)) in (Ok (firstn k (snd v)), (S (fst v), skipn k (snd v)))
  end.
Example C103_case : forall text e, gives swelling text (Some e) (fun v p => snd v = skipn p text) (swell e) /\ snd (0, text) = skipn 0 text.
Proof.
  intros text e. split; [|reflexivity]. intros (i & w) p n Hv Hn. cbn [snd] in Hv. subst w. unfold swell. cbn [fst snd].
  destruct (skipn p text) as [|x w] eqn:Ew; [right; exists e, (i, []); rewrite ?Ew; auto|].
  left. set (k := S (Nat.min i (n - 1))). exists (firstn k (x :: w)), (S i, skipn k (x :: w)), (skipn k (x :: w)). split; [reflexivity|]. split; [symmetry; apply firstn_skipn|].
  split; [rewrite firstn_length; lia|]. split; [discriminate|]. cbn [snd]. symmetry. apply skipn_step. rewrite Ew. symmetry. apply firstn_skipn.
Qed.
Definition source_case {V : Type} (give : nat -> V -> res str * V) (cfg : config) (t id : str) (debug : bool) (fuel : nat) (v : V) : option (res (list event)) :=
  match prepare cfg t id with Some (g, m) => Some (fst (own_parse (w_methods V give debug) debug g fuel m (w_new V (loc_new []) v))) | None => None end.
(** A parse that gets to the end looks beyond it and meets the failure. *)
Definition broken : error := Error_ (Loc [] 1 10) MRegexTooLong.
Example C103_fails : source_case (swell broken) any_config small_text (txt "S") true 100 (0, txt "xdxd,eeab") =
  Some (Err (Error_ (Loc [] 1 10) (MWrapped (Loc [] 1 10) MRegexTooLong))).
Proof. vm_compute. reflexivity. Qed.
(** The same reader without a failure. *)
Definition swell_on (n : nat) (v : swelling) : res str * swelling :=
  match snd v with [] => (Ok [], v) | _ => swell broken n v end.
Example C103_parses : source_case swell_on any_config small_text (txt "S") true 100 (0, txt "xdxd,eeab") =
  Some (Ok [bg 1 1 "S"; tk 6 1 "x"; bg 10 2 "D"; tk 39 2 "d"; en 10 3 "D"; tk 6 3 "x";
            bg 14 4 "D"; tk 39 4 "d"; en 14 5 "D"; tk 17 5 ",";
            bg 14 6 "D"; tk 43 6 "ee"; en 14 8 "D"; tk 23 8 "ab"; en 1 10 "S"]).
Proof. vm_compute. reflexivity. Qed.
(** One reader over the other. *)
Example C103_over : source_case (m_read_chars false) any_config small_text (txt "S") true 100 (text_reader (txt "xdxd,eeab")) =
  source_case swell_on any_config small_text (txt "S") true 100 (0, txt "xdxd,eeab").
Proof. vm_compute. reflexivity. Qed.
(** That a read gives nothing only at the end is needed: a reader that gives nothing at the
    first read changes the result. *)
Definition pausing (n : nat) (v : swelling) : res str * swelling :=
  if Nat.eqb (fst v) 0 then (Ok [], (1, snd v)) else swell_on n v.
Example C103_needs_end : exists e, source_case pausing any_config small_text (txt "S") true 100 (0, txt "xdxd,eeab") = Some (Err e).
Proof. eexists. vm_compute. reflexivity. Qed.
