(** Which functions give errors that their text tells apart. *)
From Coq Require Import String List NArith Arith Bool Lia.
From Verif Require Import Base Ident Tokenizer Ast Lex Syntax Io Graph Machine SpecText SpecSyntax SpecIo TextFacts SyntaxFacts IoFacts SpecParse SpecMachine SpecEvents SpecError ErrorFacts SpecMessage.
Import ListNotations.
Open Scope nat_scope.

Definition said {A} (r : res A) : Prop := match r with Err e => clear_msg (e_msg e) | _ => True end.
Lemma said_bind : forall A B (r : res A) (k : A -> res B), said r -> (forall a, said (k a)) -> said (let? a := r in k a).
Proof. intros A B [a|e|p|] k H K; cbn; auto. Qed.

(** ** Tokens *)
Lemma read_next_said : forall loc b flush, said (read_next loc b flush).
Proof.
  intros loc b flush. unfold read_next. destruct b as [|c r]; [exact I|]. cbn zeta.
  repeat match goal with |- said (if ?x then _ else _) => destruct x end; try exact I; try constructor.
  - unfold terminal_string. destruct (scan_to c is_terminal r) as [| |[|]]; try exact I; try constructor. destruct flush; [constructor|exact I].
  - assert (HC : said (comment loc (c :: r) flush)).
    { unfold comment. destruct r as [|p r]; [exact I|]. destruct (comment_loop p 0 _ r) as [| |[|]]; try exact I; try constructor. destruct flush; [constructor|exact I]. }
    destruct r as [|d [|e r]]; try exact I.
    + destruct (d =? c_star)%N; [exact HC|]. destruct (d =? c_slash)%N; [exact I|]. destruct (d =? c_colon)%N; exact I.
    + destruct (d =? c_star)%N; [destruct (e =? c_rpar)%N; [constructor|exact HC]|]. destruct (d =? c_slash)%N; [exact I|]. destruct (d =? c_colon)%N; exact I.
  - unfold special_sequence. destruct (scan_to c_quest is_special r) as [| |]; try exact I; try constructor. destruct flush; [constructor|exact I].
Qed.
Lemma tokenize_loop_said : forall fuel loc b, said (snd (tokenize_loop fuel loc b)).
Proof.
  induction fuel as [|f IH]; intros loc b; [exact I|]. cbn [tokenize_loop]. destruct b as [|c r]; [exact I|]. pose proof (read_next_said loc (c :: r) false) as H.
  destruct (read_next loc (c :: r) false) as [[(t & n)|]|e|p|]; try exact I; [|exact H].
  specialize (IH (loc_push_str loc (firstn n (c :: r))) (skipn n (c :: r))). destruct (tokenize_loop f _ _) as (l & [(ts & rest)|e|p|]); exact IH || exact I.
Qed.
Lemma push_said : forall t s, said (snd (tk_push_str t s)).
Proof.
  intros t s. unfold tk_push_str, over_capacity. destruct (_ && _); [constructor|]. unfold tokenize. cbn [tk_buf tk_loc].
  pose proof (tokenize_loop_said (S (length (tk_buf t ++ s))) (tk_loc t) (tk_buf t ++ s)) as H.
  destruct (tokenize_loop _ _ _) as (l & [(ts & rest)|e|p|]); exact H || exact I.
Qed.
Lemma flush_said : forall t, said (snd (tk_flush t)).
Proof.
  intros t. unfold tk_flush. pose proof (read_next_said (tk_loc t) (tk_buf t) true) as H.
  destruct (read_next (tk_loc t) (tk_buf t) true) as [[(k & n)|]|e|p|]; try exact I; [| |exact H]; cbn [tk_buf]; destruct (skipn _ _); exact I.
Qed.

(** ** Rules *)
Lemma descent_said : forall fuel all ts, said (read_definition_list fuel all ts) /\ said (read_single_definition fuel all ts) /\
  said (read_syntactic_term fuel all ts) /\ said (read_syntactic_factor fuel all ts) /\ said (read_syntactic_primary fuel all ts).
Proof.
  induction fuel as [|f IH]; intros all ts; [repeat split|].
  assert (I1 : forall all ts, said (read_definition_list f all ts)) by (intros; apply IH).
  assert (I2 : forall all ts, said (read_single_definition f all ts)) by (intros; apply IH).
  assert (I3 : forall all ts, said (read_syntactic_term f all ts)) by (intros; apply IH).
  assert (I4 : forall all ts, said (read_syntactic_factor f all ts)) by (intros; apply IH).
  assert (I5 : forall all ts, said (read_syntactic_primary f all ts)) by (intros; apply IH). clear IH.
  split; [|split; [|split; [|split]]].
  - cbn [read_definition_list]. apply said_bind; [apply I2|]. intros (sd & next). destruct (skip_trivia next) as [|t r]; [exact I|].
    destruct (is_terminator t); [exact I|]. apply said_bind; [apply I1|]. intros ds. exact I.
  - cbn [read_single_definition]. apply said_bind; [apply I3|]. intros (tm & next). destruct (skip_trivia next) as [|t r]; [exact I|].
    destruct t; cbn [is_terminator]; try exact I; try constructor. apply said_bind; [apply I2|]. intros (tms & next'). exact I.
  - cbn [read_syntactic_term]. apply said_bind; [apply I4|]. intros (fa & next). destruct (skip_trivia next) as [|t r]; [exact I|].
    destruct t; try exact I. apply said_bind; [apply I4|]. intros (ex & next'). exact I.
  - cbn [read_syntactic_factor]. apply said_bind.
    + destruct (skip_trivia ts) as [|t r]; [exact I|]. destruct t; try exact I. match goal with |- context [parse_u32 ?d] => destruct (parse_u32 d) end; [|constructor].
      destruct (skip_trivia r) as [|t' r']; [exact I|]. destruct t'; try exact I; constructor.
    + intros (n & next). apply said_bind; [apply I5|]. intros (p & next'). exact I.
  - cbn [read_syntactic_primary]. destruct (skip_trivia ts) as [|t r]; [exact I|]. destruct t; try exact I.
    + destruct (_ && _); [constructor|]. apply said_bind; [|intros (d & next); exact I]. destruct (find_close _ _ _ _) as [(sub & next)|].
      * apply said_bind; [apply I1|]. intros d. exact I.
      * constructor. cbn. auto.
    + destruct (_ && _); [constructor|]. apply said_bind; [|intros (d & next); exact I]. destruct (find_close _ _ _ _) as [(sub & next)|].
      * apply said_bind; [apply I1|]. intros d. exact I.
      * constructor. cbn. auto.
    + apply said_bind; [|intros (d & next); exact I]. destruct (find_close _ _ _ _) as [(sub & next)|].
      * apply said_bind; [apply I1|]. intros d. exact I.
      * constructor. cbn. auto.
    + destruct (read_meta_identifier _) as ((id & lo) & next). exact I.
Qed.
Lemma build_said : forall ts, said (build_syntax_rule ts).
Proof.
  intros ts. unfold build_syntax_rule. destruct (negb _); [exact I|]. destruct (read_meta_identifier ts) as ((id & loc) & next).
  destruct (skip_trivia next) as [|t r]; [exact I|]. destruct loc as [l|].
  - destruct (negb _); [constructor|]. destruct id; [exact I|]. apply said_bind; [apply descent_said|]. intros d. exact I.
  - destruct (is_terminator t); [exact I|constructor].
Qed.
Lemma append_said : forall new cur, said (snd (append_loop cur new)).
Proof.
  induction new as [|t new IH]; intros cur; [exact I|]. cbn [append_loop]. destruct (is_terminator t); [|apply IH].
  pose proof (build_said (cur ++ [t])) as H. destruct (build_syntax_rule (cur ++ [t])) as [o|e|p|]; try exact I; [|exact H].
  specialize (IH []). destruct (append_loop [] new) as (c & [rs|e|p|]); exact IH || exact I.
Qed.
Lemma lx_append_said : forall lx tk r, said r -> said (snd (lx_append lx tk r)).
Proof.
  intros lx tk [new|e|p|] H; try exact I; [|exact H]. cbn [lx_append]. pose proof (append_said new (lx_tokens lx)) as K.
  destruct (append_loop (lx_tokens lx) new) as (ts & rs). exact K.
Qed.
Lemma lx_push_str_said : forall lx s, said (snd (lx_push_str lx s)).
Proof.
  intros lx s. unfold lx_push_str. pose proof (push_said (lx_tk lx) s) as H. destruct (tk_push_str (lx_tk lx) s) as (tk & r). apply lx_append_said. exact H.
Qed.
Lemma first_said : forall r, said r -> said (first_rule r).
Proof. intros r H. apply said_bind; [exact H|]. intros rs. exact I. Qed.
Lemma lx_push_said : forall lx c, said (snd (lx_push lx c)).
Proof.
  intros lx c. unfold lx_push, tk_push. pose proof (push_said (lx_tk lx) [c]) as H. destruct (tk_push_str (lx_tk lx) [c]) as (tk & r).
  pose proof (lx_append_said lx tk r H) as K. destruct (lx_append lx tk r) as (lx' & rs). apply first_said. exact K.
Qed.
Lemma lx_flush_said : forall lx, said (snd (lx_flush lx)).
Proof.
  intros lx. unfold lx_flush. pose proof (flush_said (lx_tk lx)) as H. destruct (tk_flush (lx_tk lx)) as (tk & r).
  pose proof (lx_append_said lx tk r H) as K. destruct (lx_append lx tk r) as (lx' & rs). apply first_said. exact K.
Qed.
Lemma parse_str_said : forall name s, said (parse_str name s).
Proof.
  intros name s. unfold parse_str. pose proof (lx_push_str_said (lx_new name 0) s) as H. destruct (lx_push_str (lx_new name 0) s) as (lx & r).
  apply said_bind; [exact H|]. intros rs. pose proof (lx_flush_said lx) as K. destruct (lx_flush lx) as (lx' & r2). apply said_bind; [exact K|]. intros o. exact I.
Qed.

(** ** Syntaxes *)
Lemma new_syntax_said : forall rs, said (new_syntax rs).
Proof.
  intros rs. pose proof (new_syntax_cases rs) as H. destruct (new_syntax rs) as [sy|e|p|]; try exact I. cbn.
  destruct H as [(r & d & _ & ->)|(_ & _ & r & l & id & -> & _)]; constructor.
Qed.

(** ** Parsing *)
Lemma quoted_quotable : forall s, quotable (quoted s).
Proof.
  intros s. unfold quoted. destruct s as [|c s]; [exact I|]. destruct (Nat.leb_spec (length (c :: s)) 8) as [H|H]; cbn [quotable].
  - split; [|discriminate]. split; [cbn; lia|exact H].
  - rewrite firstn_length. split; [lia|intros _; lia].
Qed.
Lemma parse_clear : forall rs cfg g id m debug fuel rd e, parser_for rs cfg g id m -> (forall l c, library_scanner (cfg l c)) ->
  reader rd -> ending_of rd = None -> fst (parser_parse debug g fuel m rd) = Err e -> clear_msg (e_msg e).
Proof.
  intros rs cfg g id m debug fuel rd e Hp Hl Hr He H. destruct (parse_error rs cfg g id m debug fuel rd e Hp Hr He H) as [K|[K|K]].
  - destruct K as (w & s' & n & name & _ & _ & _ & -> & _). constructor. apply quoted_quotable.
  - destruct K as (w & s' & _ & _ & -> & _). constructor. apply quoted_quotable.
  - destruct K as [b s1 s2 es _ _ _ _|l c id' s1 s2 _ _ K _|l c s1 e _ _ K]; [constructor| |].
    + pose proof (Hl l c) as L. inversion K; subst. rewrite <- H0 in L. destruct L.
    + pose proof (Hl l c) as L. inversion K; subst; [constructor|]. rewrite <- H0 in L. destruct L.
Qed.
