(** The lexer and the reader with integers of their width agree with the unbounded ones
    as long as the numbers fit. *)
From Coq Require Import String List NArith Arith Bool Lia.
From Verif Require Import Base Ident Ast Tokenizer Lex SpecLex Io Narrow TextFacts TokFacts TokRun GramFacts.
Import ListNotations.
Open Scope N_scope.

(** * Locations *)
Definition room (l : location) (n : N) : Prop :=
  l_lines l + n < u64_limit /\ l_columns l + n < u64_limit.
Lemma room_le : forall l n k, room l n -> k <= n -> room l k.
Proof. unfold room. intros. lia. Qed.
Lemma room_push : forall l c n, room l (1 + n) -> loc_push64 l c = Some (loc_push l c) /\ room (loc_push l c) n.
Proof.
  intros l c n (H1 & H2). unfold loc_push64, loc_push, add64, room.
  destruct (N.eqb c c_lf); cbn [l_lines l_columns].
  - destruct (N.ltb_spec (l_lines l + 1) u64_limit); [cbn [obind]|lia]. split; [reflexivity|lia].
  - destruct (N.ltb_spec (l_columns l + 1) u64_limit); [cbn [obind]|lia]. split; [reflexivity|lia].
Qed.
Lemma room_str : forall s l n, room l (N.of_nat (length s) + n) ->
  loc_push_str64 l s = Some (loc_push_str l s) /\ room (loc_push_str l s) n.
Proof.
  induction s as [|c s IH]; intros l n H; [split; [reflexivity|exact H]|].
  destruct (room_push l c (N.of_nat (length s) + n)) as (E1 & E2).
  { eapply room_le; [exact H|]. cbn [length]. lia. }
  cbn [loc_push_str64]. rewrite E1. exact (IH _ _ E2).
Qed.
Lemma room_str0 : forall s l, room l (N.of_nat (length s)) -> loc_push_str64 l s = Some (loc_push_str l s).
Proof. intros s l H. apply (room_str s l 0). rewrite N.add_0_r. exact H. Qed.

(** * The tokenizer *)
Lemma comment_fits : forall b prev d l, d + N.of_nat (length b) < i32_limit -> room l (N.of_nat (length b)) ->
  comment_loop32 prev d l b = Some (comment_loop prev (N.to_nat d) l b).
Proof.
  induction b as [|c b IH]; intros prev d l Hd Hl; [reflexivity|]. cbn [length] in Hd, Hl.
  cbn [comment_loop32 comment_loop].
  destruct (room_push l c (N.of_nat (length b))) as (E1 & E2); [eapply room_le; [exact Hl|lia]|].
  destruct ((prev =? c_star) && (c =? c_rpar)) eqn:H1.
  - destruct (N.eqb_spec d 0) as [->|Hz]; [reflexivity|]. rewrite E1. cbn [obind].
    rewrite IH by (assumption || lia). cbn [obind].
    destruct (N.to_nat d) as [|n] eqn:Ed; [lia|]. replace (N.to_nat (d - 1)) with n by lia.
    destruct (comment_loop c n (loc_push l c) b); reflexivity.
  - destruct ((prev =? c_lpar) && (c =? c_star)) eqn:H2.
    + unfold inc32. destruct (N.ltb_spec (d + 1) i32_limit); [|lia]. cbn [obind]. rewrite E1. cbn [obind].
      rewrite IH by (assumption || lia). cbn [obind]. replace (N.to_nat (d + 1)) with (S (N.to_nat d)) by lia.
      destruct (comment_loop c (S (N.to_nat d)) (loc_push l c) b); reflexivity.
    + destruct (negb (is_gap c) && negb (is_terminal c)); [reflexivity|]. rewrite E1. cbn [obind].
      rewrite IH by (assumption || lia). cbn [obind]. destruct (comment_loop c (N.to_nat d) (loc_push l c) b); reflexivity.
Qed.
Lemma comment32_fits : forall l b fl, N.of_nat (length b) < i32_limit -> room l (N.of_nat (length b)) ->
  comment32 l b fl = Some (comment l b fl).
Proof.
  intros l [|c [|p r]] fl Hd Hl; try reflexivity. cbn [length] in Hd, Hl. unfold comment32, comment.
  destruct (room_str [c_lpar; c_star] l (N.of_nat (length r))) as (E1 & E2).
  { eapply room_le; [exact Hl|]. cbn [length]. lia. }
  rewrite E1. cbn [obind]. rewrite comment_fits by (assumption || lia). reflexivity.
Qed.
Lemma read_next_fits : forall l b fl, N.of_nat (length b) < i32_limit -> room l (N.of_nat (length b)) ->
  read_next32 l b fl = Some (read_next l b fl).
Proof.
  intros l [|c [|d r2]] fl Hd Hl; try reflexivity. unfold read_next32.
  destruct (N.eqb_spec c c_lpar) as [->|]; [|reflexivity]. destruct (N.eqb_spec d c_star) as [->|]; [|reflexivity].
  cbn [andb]. rewrite (comment32_fits l (c_lpar :: c_star :: r2) fl Hd Hl).
  destruct r2 as [|e r3]; [|destruct (e =? c_rpar) eqn:Ee]; unfold read_next; cbn -[comment is_gap];
    rewrite ?andb_false_r; try (rewrite Ee); reflexivity.
Qed.
Lemma tokenize_fits : forall f l b k, N.of_nat (length b) < i32_limit -> room l (N.of_nat (length b) + k) ->
  tokenize_loop64 f l b = Some (tokenize_loop f l b) /\ room (fst (tokenize_loop f l b)) k.
Proof.
  induction f as [|f IH]; intros l b k Hd Hl.
  { split; [reflexivity|]. eapply room_le; [exact Hl|lia]. }
  assert (Hk : room l k) by (eapply room_le; [exact Hl|lia]).
  cbn [tokenize_loop64 tokenize_loop]. destruct b as [|c b]; [split; [reflexivity|exact Hk]|].
  rewrite read_next_fits; [|exact Hd|eapply room_le; [exact Hl|lia]]. cbn [obind].
  destruct (read_next l (c :: b) false) as [[(t & n)|]|e|p|] eqn:En; try (split; [reflexivity|exact Hk]).
  pose proof (firstn_skipn n (c :: b)) as Hs. apply (f_equal (@length char)) in Hs. rewrite app_length in Hs.
  destruct (room_str (firstn n (c :: b)) l (N.of_nat (length (skipn n (c :: b))) + k)) as (E1 & E2).
  { eapply room_le; [exact Hl|]. lia. }
  rewrite E1. cbn [obind]. destruct (IH _ (skipn n (c :: b)) k ltac:(lia) E2) as (E3 & E4). rewrite E3. cbn [obind].
  destruct (tokenize_loop f (loc_push_str l (firstn n (c :: b))) (skipn n (c :: b))) as (l2 & [(ts & rest)|e|p|]);
    (split; [reflexivity|exact E4]).
Qed.

(** What the tokenizer does to its state. *)
Lemma tokens_length : forall f l b l' ts rest, tokenize_loop f l b = (l', Ok (ts, rest)) -> (length ts + length rest <= length b)%nat.
Proof.
  induction f as [|f IH]; intros l b l' ts rest H; [discriminate|]. cbn [tokenize_loop] in H.
  destruct b as [|c b]; [injection H as _ <- <-; cbn; lia|].
  destruct (read_next l (c :: b) false) as [[(t & n)|]|e|p|] eqn:En; try discriminate.
  - destruct (tokenize_loop f (loc_push_str l (firstn n (c :: b))) (skipn n (c :: b))) as (l2 & [(ts2 & rest2)|e|p|]) eqn:Et; try discriminate.
    injection H as <- <- <-. apply IH in Et. apply read_next_split in En as (_ & _ & Hn).
    pose proof (skipn_length_lt _ _ Hn) as Hs. cbn [length] in *. lia.
  - injection H as _ <- <-. cbn [length]. lia.
Qed.
Definition news (x : res (list token)) : nat := match x with Ok ts => length ts | _ => 0 end.
Lemma push_fits : forall t s k, N.of_nat (length (tk_buf t ++ s)) < i32_limit -> room (tk_loc t) (N.of_nat (length (tk_buf t ++ s)) + k) ->
  tk_push_str64 t s = Some (tk_push_str t s) /\ room (tk_loc (fst (tk_push_str t s))) k /\
  (length (tk_buf (fst (tk_push_str t s))) <= length (tk_buf t ++ s) /\
   news (snd (tk_push_str t s)) + length (tk_buf (fst (tk_push_str t s))) <= length (tk_buf t ++ s))%nat.
Proof.
  intros t s k Hd Hl. unfold tk_push_str64, tk_push_str.
  destruct (over_capacity t (length s)).
  { cbn [fst snd news]. split; [reflexivity|]. rewrite app_length. split; [eapply room_le; [exact Hl|lia]|lia]. }
  unfold tokenize64, tokenize. cbn [tk_buf tk_loc tk_max].
  destruct (tokenize_fits (S (length (tk_buf t ++ s))) (tk_loc t) (tk_buf t ++ s) k Hd Hl) as (E1 & E2).
  rewrite E1. cbn [obind].
  destruct (tokenize_loop (S (length (tk_buf t ++ s))) (tk_loc t) (tk_buf t ++ s)) as (l & [(ts & rest)|e|p|]) eqn:Et;
    cbn [fst snd news tk_loc tk_buf] in *; (split; [reflexivity|split; [exact E2|]]); try (rewrite ?app_length; lia).
  apply tokens_length in Et. lia.
Qed.
Lemma flush_fits : forall t k, N.of_nat (length (tk_buf t)) < i32_limit -> room (tk_loc t) (N.of_nat (length (tk_buf t)) + k) ->
  tk_flush64 t = Some (tk_flush t) /\ room (tk_loc (fst (tk_flush t))) k /\
  (length (tk_buf (fst (tk_flush t))) <= length (tk_buf t) /\
   news (snd (tk_flush t)) + length (tk_buf (fst (tk_flush t))) <= S (length (tk_buf t)))%nat.
Proof.
  intros t k Hd Hl. assert (Hk : room (tk_loc t) k) by (eapply room_le; [exact Hl|lia]).
  unfold tk_flush64, tk_flush. rewrite read_next_fits; [|exact Hd|eapply room_le; [exact Hl|lia]]. cbn [obind].
  destruct (read_next (tk_loc t) (tk_buf t) true) as [[(tk & n)|]|e|p|] eqn:En;
    try (cbn [fst snd news]; split; [reflexivity|split; [exact Hk|lia]]).
  - pose proof (firstn_skipn n (tk_buf t)) as Hs. apply (f_equal (@length char)) in Hs. rewrite app_length in Hs.
    apply read_next_split in En as (_ & _ & Hn).
    destruct (room_str (firstn n (tk_buf t)) (tk_loc t) k) as (E1 & E2); [eapply room_le; [exact Hl|lia]|].
    rewrite E1. cbn [obind tk_buf tk_loc]. destruct (skipn n (tk_buf t)) as [|c r] eqn:Ek.
    + cbn [fst snd news tk_buf tk_loc app length]. split; [reflexivity|]. split; [exact E2|lia].
    + cbn [fst snd news tk_buf tk_loc]. split; [reflexivity|]. split; [exact E2|]. cbn [length] in *. lia.
  - cbn [firstn skipn loc_push_str64 loc_push_str fold_left obind tk_buf tk_loc].
    destruct (tk_buf t) as [|c r]; cbn [fst snd news tk_buf tk_loc app length]; (split; [reflexivity|]); (split; [exact Hk|lia]).
Qed.

(** * The syntax reader *)
Lemma find_close_fits : forall o c ts d, d + N.of_nat (length ts) < i32_limit ->
  find_close32 o c d ts = Some (find_close o c (N.to_nat d) ts).
Proof.
  intros o c. induction ts as [|t ts IH]; intros d Hd; [reflexivity|]. cbn [length] in Hd. cbn [find_close32 find_close].
  destruct (o t).
  - unfold inc32. destruct (N.ltb_spec (d + 1) i32_limit); [|lia]. cbn [obind]. rewrite IH by lia. cbn [obind].
    replace (N.to_nat (d + 1)) with (S (N.to_nat d)) by lia. reflexivity.
  - destruct (c t).
    + destruct (N.eqb_spec d 0) as [->|Hz]; [reflexivity|]. rewrite IH by lia. cbn [obind].
      destruct (N.to_nat d) as [|n] eqn:Ed; [lia|]. replace (N.to_nat (d - 1)) with n by lia. reflexivity.
    + rewrite IH by lia. reflexivity.
Qed.
Lemma rmi_length : forall ts id lo, (length (snd (rmi_loop id lo ts)) <= length ts)%nat.
Proof.
  induction ts as [|t ts IH]; intros id lo; [cbn; lia|]. destruct t; cbn [rmi_loop]; try (cbn; lia);
    (etransitivity; [apply IH|cbn; lia]).
Qed.
Lemma meta_length : forall ts, (length (snd (read_meta_identifier ts)) <= length ts)%nat.
Proof.
  intros ts. unfold read_meta_identifier. pose proof (rmi_length (skip_trivia ts) [] None) as H.
  destruct (rmi_loop [] None (skip_trivia ts)) as ((id & lo) & nx). cbn [snd] in *.
  pose proof (skip_length ts). lia.
Qed.
Definition shorter {A} (ts : list token) (x : res (A * list token)) : Prop :=
  match x with Ok (_, next) => (length next <= length ts)%nat | _ => True end.
Definition fits_with {A} (ts : list token) (y : option (res (A * list token))) (x : res (A * list token)) : Prop :=
  y = Some x /\ shorter ts x.
Lemma fits_bind : forall {A B} ts ts' y x (k : A * list token -> option (res (B * list token))) h,
  fits_with ts' y x -> (length ts' <= length ts)%nat ->
  (forall a next, (length next <= length ts')%nat -> fits_with ts (k (a, next)) (h (a, next))) ->
  fits_with ts (rbind y k) (bind x h).
Proof.
  intros A B ts ts' y x k h (-> & H2) Hle H. destruct x as [(a & next)|e|p|]; cbn [rbind bind].
  - apply H. exact H2.
  - split; [reflexivity|exact I].
  - split; [reflexivity|exact I].
  - split; [reflexivity|exact I].
Qed.
Lemma fits_ok : forall {A} ts (a : A) next, (length next <= length ts)%nat -> fits_with ts (Some (Ok (a, next))) (Ok (a, next)).
Proof. intros. split; [reflexivity|assumption]. Qed.
Lemma fits_err : forall {A} ts (x : res (A * list token)), (forall a, x <> Ok a) -> fits_with ts (Some x) x.
Proof. intros A ts [(a & n)|e|p|] H; [exfalso; eapply H; reflexivity| | |]; (split; [reflexivity|exact I]). Qed.
Definition fits32 (ts : list token) : Prop := N.of_nat (length ts) < i32_limit.
Lemma descent_fits : forall f,
  (forall all ts, fits32 ts -> read_definition_list32 f all ts = Some (read_definition_list f all ts)) /\
  (forall all ts, fits32 ts -> fits_with ts (read_single_definition32 f all ts) (read_single_definition f all ts)) /\
  (forall all ts, fits32 ts -> fits_with ts (read_syntactic_term32 f all ts) (read_syntactic_term f all ts)) /\
  (forall all ts, fits32 ts -> fits_with ts (read_syntactic_factor32 f all ts) (read_syntactic_factor f all ts)) /\
  (forall all ts, fits32 ts -> fits_with ts (read_syntactic_primary32 f all ts) (read_syntactic_primary f all ts)).
Proof.
  assert (Hle : forall a b : list token, fits32 b -> (length a <= length b)%nat -> fits32 a) by (unfold fits32; intros; lia).
  induction f as [|f (IHdl & IHsd & IHst & IHfa & IHpr)].
  { repeat split; intros; reflexivity. }
  split; [|split; [|split; [|split]]]; intros all ts Hts.
  - cbn [read_definition_list32 read_definition_list]. destruct (IHsd all ts Hts) as (E1 & E2). rewrite E1.
    destruct (read_single_definition f all ts) as [(sd & next)|e|p|]; cbn [rbind bind]; try reflexivity.
    cbn [shorter] in E2. pose proof (skip_length next) as Hn. destruct (skip_trivia next) as [|t r]; [reflexivity|].
    destruct (is_terminator t); [reflexivity|]. cbn [length] in Hn. rewrite IHdl.
    2:{ eapply Hle; [exact Hts|]. destruct t; cbn [length]; lia. }
    destruct (read_definition_list f all _); reflexivity.
  - cbn [read_single_definition32 read_single_definition]. eapply fits_bind; [exact (IHst all ts Hts)|lia|].
    intros tm next Hn. pose proof (skip_length next) as Hn2. destruct (skip_trivia next) as [|t r]; [apply fits_ok; cbn; lia|].
    cbn [length] in Hn2.
    assert (Hother : fits_with ts (if is_terminator t then Some (Ok ([tm], t :: r)) else Some (Err (Error_ (tok_loc t) (MConcatExpected (tok_name t)))))
      (if is_terminator t then Ok ([tm], t :: r) else Err (Error_ (tok_loc t) (MConcatExpected (tok_name t))))).
    { destruct (is_terminator t); [apply fits_ok; cbn [length]; lia|apply fits_err; discriminate]. }
    destruct t; try exact Hother; [|apply fits_ok; cbn [length]; lia].
    eapply fits_bind; [apply IHsd; eapply Hle; [exact Hts|lia]|lia|]. intros tms nx Hx. apply fits_ok. lia.
  - cbn [read_syntactic_term32 read_syntactic_term]. eapply fits_bind; [exact (IHfa all ts Hts)|lia|].
    intros fa next Hn. pose proof (skip_length next) as Hn2. destruct (skip_trivia next) as [|t r]; [apply fits_ok; cbn; lia|].
    cbn [length] in Hn2. destruct t; try (apply fits_ok; cbn [length]; lia).
    eapply fits_bind; [apply IHfa; eapply Hle; [exact Hts|lia]|lia|]. intros ex nx Hx. apply fits_ok. lia.
  - cbn [read_syntactic_factor32 read_syntactic_factor]. pose proof (skip_length ts) as Hn.
    eapply (fits_bind ts ts).
    + split; [reflexivity|]. destruct (skip_trivia ts) as [|t r]; [cbn; lia|]. cbn [length] in Hn.
      destruct t; try (cbn [shorter length]; lia). destruct (parse_u32 s); [|exact I].
      pose proof (skip_length r) as Hr. destruct (skip_trivia r) as [|t2 r2]; [exact I|].
      destruct t2; try exact I. cbn [shorter]. pose proof (skip_length r2). cbn [length] in Hr. lia.
    + lia.
    + intros n next Hx. eapply fits_bind; [apply IHpr; eapply Hle; [exact Hts|exact Hx]|exact Hx|].
      intros p nx Hy. apply fits_ok. lia.
  - cbn [read_syntactic_primary32 read_syntactic_primary]. pose proof (skip_length ts) as Hn.
    assert (Henc : forall o c open r, (length r < length ts)%nat -> fits_with r
      (let^ x := find_close32 o c 0 r in
        match x with
        | Some (sub, next) => let^? d := read_definition_list32 f sub sub in Some (Ok (d, next))
        | None => Some (Err (Error_ (tok_loc open) (MNotClosed (tok_name open) (tok_debug open))))
        end)
      (match find_close o c 0 r with
        | Some (sub, next) => let? d := read_definition_list f sub sub in Ok (d, next)
        | None => Err (Error_ (tok_loc open) (MNotClosed (tok_name open) (tok_debug open)))
        end)).
    { intros o c open r Hr. rewrite find_close_fits by (unfold fits32 in Hts; lia). cbn [obind N.to_nat].
      destruct (find_close o c 0 r) as [(sub & next)|] eqn:Ef; [|apply fits_err; discriminate].
      destruct (find_close_split _ _ _ _ _ _ Ef) as (t & -> & _). rewrite app_length in *. cbn [length] in *.
      rewrite IHdl by (eapply Hle; [exact Hts|lia]).
      destruct (read_definition_list f sub sub); cbn [rbind bind]; [apply fits_ok; rewrite app_length; cbn [length]; lia| | |]; (apply fits_err; discriminate). }
    destruct (skip_trivia ts) as [|t r] eqn:Es; [apply fits_ok; cbn; lia|]. cbn [length] in Hn.
    destruct t; try (apply fits_ok; cbn [length]; lia).
    + destruct (str_eqb s [c_lpar; c_slash] && _); [apply fits_err; discriminate|].
      eapply fits_bind; [apply Henc; lia|lia|]. intros d nx Hx. apply fits_ok. lia.
    + destruct (str_eqb s [c_lpar; c_colon] && _); [apply fits_err; discriminate|].
      eapply fits_bind; [apply Henc; lia|lia|]. intros d nx Hx. apply fits_ok. lia.
    + eapply fits_bind; [apply Henc; lia|lia|]. intros d nx Hx. apply fits_ok. lia.
    + pose proof (meta_length (TMeta l s :: r)) as Hm. destruct (read_meta_identifier (TMeta l s :: r)) as ((id & lo) & nx).
      cbn [snd length] in Hm. apply fits_ok. lia.
Qed.
Lemma build_fits : forall ts, fits32 ts -> build_syntax_rule32 ts = Some (build_syntax_rule ts).
Proof.
  intros ts Hts. unfold build_syntax_rule32, build_syntax_rule. destruct (negb (one_final_terminator ts)); [reflexivity|].
  pose proof (meta_length ts) as Hm. destruct (read_meta_identifier ts) as ((id & lo) & nx). cbn [snd] in Hm.
  pose proof (skip_length nx) as Hn. destruct (skip_trivia nx) as [|t r]; [reflexivity|]. cbn [length] in Hn.
  destruct lo as [l|]; [|reflexivity]. destruct (negb (is_defining_symbol t)); [reflexivity|].
  destruct (match id with [] => true | _ => false end); [reflexivity|].
  destruct (descent_fits (rd_fuel ts)) as (Hd & _). rewrite Hd by (unfold fits32 in *; lia).
  destruct (read_definition_list (rd_fuel ts) ts r); reflexivity.
Qed.
Lemma append_fits : forall new cur, N.of_nat (length cur + length new) < i32_limit ->
  append_loop32 cur new = Some (append_loop cur new) /\ (length (fst (append_loop cur new)) <= length cur + length new)%nat.
Proof.
  induction new as [|t new IH]; intros cur H; [split; [reflexivity|cbn; lia]|]. cbn [length] in H. cbn [append_loop32 append_loop].
  assert (Hc : length (cur ++ [t]) = S (length cur)) by (rewrite app_length; cbn; lia).
  destruct (is_terminator t).
  - rewrite build_fits by (unfold fits32; rewrite Hc; lia). cbn [obind].
    destruct (build_syntax_rule (cur ++ [t])) as [o|e|p|]; try (split; [reflexivity|cbn [fst length]; lia]).
    destruct (IH []) as (E1 & E2); [cbn [length]; lia|]. rewrite E1. cbn [obind].
    destruct (append_loop [] new) as (c & [rs|e|p|]); cbn [fst length] in *; (split; [reflexivity|lia]).
  - destruct (IH (cur ++ [t])) as (E1 & E2); [rewrite Hc; lia|]. split; [exact E1|]. cbn [length]. lia.
Qed.

(** * Histories of calls on a lexer *)
Definition given (h : hcall) : nat := match h with HPush _ => 1 | HPushStr s => length s | _ => 0 end.
Definition given_all (hs : list hcall) : nat := fold_right (fun h n => given h + n)%nat 0%nat hs.
Record held (T C : N) (lx : lexer) : Prop := Held {
  hd_buf : N.of_nat (length (tk_buf (lx_tk lx))) <= T;
  hd_toks : N.of_nat (length (lx_tokens lx) + length (tk_buf (lx_tk lx))) <= T + C;
  hd_lines : l_lines (tk_loc (lx_tk lx)) <= 1 + C * T;
  hd_columns : l_columns (tk_loc (lx_tk lx)) <= 1 + C * T }.
Lemma append_held : forall lx tk r, N.of_nat (length (lx_tokens lx) + news r) < i32_limit ->
  lx_append32 lx tk r = Some (lx_append lx tk r) /\ lx_tk (fst (lx_append lx tk r)) = tk /\
  (length (lx_tokens (fst (lx_append lx tk r))) <= length (lx_tokens lx) + news r)%nat.
Proof.
  intros lx tk [new|e|p|] H; cbn [news] in H; unfold lx_append32, lx_append; try (cbn [fst lx_tk lx_tokens news]; split; [reflexivity|split; [reflexivity|lia]]).
  destruct (append_fits new (lx_tokens lx) H) as (E1 & E2). rewrite E1. cbn [obind].
  destruct (append_loop (lx_tokens lx) new) as (ts & rs). cbn [fst lx_tk lx_tokens news] in *. auto.
Qed.
Lemma held_room : forall T C lx n, held T C lx -> T + C + n < i32_limit -> exists k, 1 + C * T + (T + n) + k + 1 = u64_limit /\
  room (tk_loc (lx_tk lx)) (T + n + k).
Proof.
  intros T C lx n H Hb. destruct H as [_ _ H3 H4]. unfold room.
  assert (Hc : C * T < i32_limit * i32_limit) by nia. exists (u64_limit - 1 - (1 + C * T) - (T + n)).
  unfold i32_limit, u64_limit in *. lia.
Qed.
Lemma held_after : forall T C k tk ts n, 1 + C * T + (T + n) + k + 1 = u64_limit -> room (tk_loc tk) k ->
  N.of_nat (length (tk_buf tk)) <= T + n -> N.of_nat (length ts + length (tk_buf tk)) <= T + n + (C + 1) -> held (T + n) (C + 1) (Lx tk ts).
Proof.
  intros T C k tk ts n Hk (H1 & H2) H3 H4.
  assert (E : 1 + C * T + (T + n) <= 1 + (C + 1) * (T + n)) by nia.
  constructor; cbn [lx_tk lx_tokens]; lia.
Qed.
Lemma held_push : forall T C lx s, held T C lx -> T + C + N.of_nat (length s) + 1 < i32_limit ->
  lx_push_str64 lx s = Some (lx_push_str lx s) /\ held (T + N.of_nat (length s)) (C + 1) (fst (lx_push_str lx s)).
Proof.
  intros T C lx s H Hb. destruct (held_room T C lx (N.of_nat (length s)) H) as (k & Hk & Hr); [lia|].
  pose proof (hd_buf _ _ _ H) as Hbuf. pose proof (hd_toks _ _ _ H) as Htok.
  destruct (push_fits (lx_tk lx) s k) as (E1 & E2 & E3 & E4).
  { rewrite app_length. lia. }
  { eapply room_le; [exact Hr|]. rewrite app_length. lia. }
  rewrite app_length in E3, E4. unfold lx_push_str64, lx_push_str. rewrite E1. cbn [obind].
  destruct (tk_push_str (lx_tk lx) s) as (tk & r). cbn [fst snd] in *.
  destruct (append_held lx tk r) as (A1 & A2 & A3); [lia|]. rewrite A1. split; [reflexivity|].
  destruct (fst (lx_append lx tk r)) as (tk' & ts). cbn [lx_tk lx_tokens] in A2, A3. subst tk'.
  eapply held_after; [exact Hk|exact E2|lia|lia].
Qed.
Lemma held_flush : forall T C lx, held T C lx -> T + C + 1 < i32_limit ->
  lx_flush64 lx = Some (lx_flush lx) /\ held T (C + 1) (fst (lx_flush lx)).
Proof.
  intros T C lx H Hb. destruct (held_room T C lx 0 H) as (k & Hk & Hr); [lia|].
  pose proof (hd_buf _ _ _ H) as Hbuf. pose proof (hd_toks _ _ _ H) as Htok.
  destruct (flush_fits (lx_tk lx) k) as (E1 & E2 & E3 & E4).
  { lia. }
  { eapply room_le; [exact Hr|]. lia. }
  unfold lx_flush64, lx_flush. rewrite E1. cbn [obind].
  destruct (tk_flush (lx_tk lx)) as (tk & r). cbn [fst snd] in *.
  destruct (append_held lx tk r) as (A1 & A2 & A3); [lia|]. rewrite A1. cbn [obind].
  destruct (lx_append lx tk r) as ((tk' & ts) & rs). cbn [fst lx_tk lx_tokens] in *. subst tk'. split; [reflexivity|].
  rewrite <- (N.add_0_r T). eapply held_after; [exact Hk|exact E2|lia|lia].
Qed.
Lemma held_step : forall T C lx h, held T C lx -> T + C + N.of_nat (given h) + 1 < i32_limit ->
  hcall64 lx h = Some (hstep lx h, hobserve lx h) /\ held (T + N.of_nat (given h)) (C + 1) (hstep lx h).
Proof.
  intros T C lx [c|s| |] H Hb; cbn [given hcall64 hstep hobserve] in *.
  - destruct (held_push T C lx [c] H Hb) as (E1 & E2). unfold lx_push64. rewrite E1. cbn [obind].
    change (lx_push lx c) with (let '(lx', rs) := lx_push_str lx [c] in (lx', first_rule rs)) || unfold lx_push.
    unfold lx_push_str, tk_push in *. destruct (tk_push_str (lx_tk lx) [c]) as (tk & r). destruct (lx_append lx tk r) as (lx' & rs).
    cbn [obind fst snd] in *. split; [reflexivity|exact E2].
  - destruct (held_push T C lx s H Hb) as (E1 & E2). rewrite E1. destruct (lx_push_str lx s) as (lx' & rs). cbn [obind fst snd] in *. auto.
  - destruct (held_flush T C lx H) as (E1 & E2); [lia|]. rewrite E1. rewrite N.add_0_r. destruct (lx_flush lx) as (lx' & rs). cbn [obind fst snd] in *. auto.
  - split; [reflexivity|]. generalize ((C + 1) * (T + N.of_nat 0))%N (eq_refl ((C + 1) * (T + N.of_nat 0))%N). intros x Hx.
    constructor; rewrite ?Hx; cbn [lx_reset lx_tk lx_tokens tk_reset tk_buf tk_loc loc_reset l_lines l_columns length]; lia.
Qed.
Lemma held_new : forall name max, held 0 0 (lx_new name max).
Proof. intros. constructor; cbn; lia. Qed.
Lemma history_fits : forall hs T C lx, held T C lx -> T + C + N.of_nat (given_all hs + length hs) < i32_limit ->
  observations64 lx hs = Some (observations lx hs).
Proof.
  induction hs as [|h hs IH]; intros T C lx H Hb; [reflexivity|]. cbn [given_all fold_right length] in Hb. fold (given_all hs) in Hb.
  destruct (held_step T C lx h H) as (E1 & E2); [lia|]. cbn [observations64 observations]. rewrite E1. cbn [obind].
  rewrite (IH _ _ _ E2) by lia. reflexivity.
Qed.
Lemma parse_str_fits : forall name s, N.of_nat (length s) + 2 < i32_limit -> parse_str64 name s = Some (parse_str name s).
Proof.
  intros name s Hs. unfold parse_str64, parse_str.
  destruct (held_push 0 0 (lx_new name 0) s (held_new name 0)) as (E1 & E2); [lia|]. rewrite E1. cbn [obind].
  destruct (lx_push_str (lx_new name 0) s) as (lx & r). cbn [fst] in E2. destruct r as [rs|e|p|]; try reflexivity. cbn [rbind bind].
  destruct (held_flush _ _ lx E2) as (E3 & _); [lia|]. rewrite E3. cbn [obind]. destruct (lx_flush lx) as (lx' & [o|e|p|]); reflexivity.
Qed.

(** * Too many brackets *)
Definition open_text (n : nat) : str := [97; c_eq; c_lpar] ++ repeat c_lpar n ++ [c_semi].
Lemma open_read : forall l c r, c = c_lpar \/ c = c_semi -> read_next l (c_lpar :: c :: r) false = Ok (Some (TStartGroup l, 1%nat)).
Proof. intros l c r [->| ->]; reflexivity. Qed.
Lemma open_tokens : forall n f l, (S n < f)%nat -> room l (N.of_nat (S n)) -> exists l' ts lt,
  tokenize_loop64 f l (repeat c_lpar n ++ [c_semi]) = Some (l', Ok (ts ++ [TTerminator lt c_semi], [])) /\
  length ts = n /\ Forall (fun t => is_start_group t = true) ts.
Proof.
  induction n as [|n IH]; intros f l Hf Hl.
  - destruct f as [|[|f]]; try lia. cbn [repeat app tokenize_loop64 read_next32].
    destruct (room_push l c_semi 0) as (E1 & _); [eapply room_le; [exact Hl|lia]|].
    change (read_next l [c_semi] false) with (Ok (Some (TTerminator l c_semi, 1%nat))). cbn [obind firstn loc_push_str64 skipn].
    rewrite E1. cbn [obind]. eexists _, [], l. split; [reflexivity|]. split; [reflexivity|constructor].
  - destruct f as [|f]; [lia|]. cbn [repeat app].
    assert (Hc : exists c r, repeat c_lpar n ++ [c_semi] = c :: r /\ (c = c_lpar \/ c = c_semi)).
    { destruct n; cbn; eauto. }
    destruct Hc as (c & r & Er & Hc). destruct (room_push l c_lpar (N.of_nat (S n))) as (E1 & E2); [eapply room_le; [exact Hl|lia]|].
    destruct (IH f (loc_push l c_lpar) ltac:(lia) E2) as (l' & ts & lt & E3 & E4 & E5).
    cbn [tokenize_loop64]. assert (En : read_next32 l (c_lpar :: repeat c_lpar n ++ [c_semi]) false = Some (Ok (Some (TStartGroup l, 1%nat)))).
    { rewrite Er. unfold read_next32. rewrite open_read by exact Hc. destruct Hc as [->| ->]; reflexivity. }
    rewrite En. cbn [obind firstn loc_push_str64 skipn]. rewrite E1. cbn [obind]. rewrite E3. cbn [obind].
    eexists _, (TStartGroup l :: ts), lt. split; [reflexivity|]. cbn [length]. split; [congruence|]. constructor; [reflexivity|exact E5].
Qed.
Lemma one_token : forall f l c b t l1 l' ts rest, read_next32 l (c :: b) false = Some (Ok (Some (t, 1%nat))) -> loc_push64 l c = Some l1 ->
  tokenize_loop64 f l1 b = Some (l', Ok (ts, rest)) -> tokenize_loop64 (S f) l (c :: b) = Some (l', Ok (t :: ts, rest)).
Proof. intros f l c b t l1 l' ts rest H1 H2 H3. cbn [tokenize_loop64]. rewrite H1. cbn [obind firstn skipn loc_push_str64]. rewrite H2. cbn [obind]. rewrite H3. reflexivity. Qed.
Lemma open_close : forall ts d tail, Forall (fun t => is_start_group t = true) ts -> d < i32_limit -> i32_limit <= d + N.of_nat (length ts) ->
  find_close32 is_start_group is_end_group d (ts ++ tail) = None.
Proof.
  induction ts as [|t ts IH]; intros d tail Ht Hd Hl; cbn [length] in Hl; [lia|]. cbn [app find_close32].
  rewrite (Forall_inv Ht). unfold inc32. destruct (N.ltb_spec (d + 1) i32_limit); [|reflexivity]. cbn [obind].
  rewrite (IH (d + 1) tail); [reflexivity|exact (Forall_inv_tail Ht)|assumption|lia].
Qed.
Lemma open_list : forall f all l ts tail, Forall (fun t => is_start_group t = true) ts -> i32_limit <= N.of_nat (length ts) ->
  read_definition_list32 (5 + f)%nat all (TStartGroup l :: ts ++ tail) = None.
Proof.
  intros f all l ts tail Ht Hl.
  assert (Hp : read_syntactic_primary32 (1 + f)%nat all (TStartGroup l :: ts ++ tail) = None).
  { cbn [Nat.add read_syntactic_primary32]. change (skip_trivia (TStartGroup l :: ts ++ tail)) with (TStartGroup l :: ts ++ tail). cbn iota.
    rewrite (open_close ts 0 tail Ht); [reflexivity|reflexivity|rewrite N.add_0_l; exact Hl]. }
  assert (Hf : read_syntactic_factor32 (2 + f)%nat all (TStartGroup l :: ts ++ tail) = None).
  { change (2 + f)%nat with (S (1 + f)%nat); cbn [read_syntactic_factor32]. change (skip_trivia (TStartGroup l :: ts ++ tail)) with (TStartGroup l :: ts ++ tail). cbn iota zeta.
    unfold rbind at 1. cbn [obind]. rewrite Hp. reflexivity. }
  assert (Hm : read_syntactic_term32 (3 + f)%nat all (TStartGroup l :: ts ++ tail) = None).
  { change (3 + f)%nat with (S (2 + f)%nat); cbn [read_syntactic_term32]. rewrite Hf. reflexivity. }
  assert (Hs : read_single_definition32 (4 + f)%nat all (TStartGroup l :: ts ++ tail) = None).
  { change (4 + f)%nat with (S (3 + f)%nat); cbn [read_single_definition32]. rewrite Hm. reflexivity. }
  change (5 + f)%nat with (S (4 + f)%nat); cbn [read_definition_list32]. rewrite Hs. reflexivity.
Qed.
Lemma open_trivia : forall ts, Forall (fun t => is_start_group t = true) ts -> existsb is_terminator ts = false.
Proof.
  induction ts as [|t ts IH]; intros Ht; [reflexivity|]. cbn [existsb]. rewrite (IH (Forall_inv_tail Ht)), orb_false_r.
  pose proof (Forall_inv Ht) as H. destruct t; try discriminate. reflexivity.
Qed.
Lemma existsb_rev : forall {A} (p : A -> bool) l, existsb p l = false -> existsb p (rev l) = false.
Proof.
  intros A p l H. destruct (existsb p (rev l)) eqn:E; [|reflexivity]. apply existsb_exists in E as (x & Hx & Hp).
  apply in_rev in Hx. rewrite <- H. symmetry. apply existsb_exists. eauto.
Qed.
Lemma open_overflows : forall n name, i32_limit <= N.of_nat n -> N.of_nat n + 10 < u64_limit -> parse_str64 name (open_text n) = None.
Proof.
  intros n name Hn Hu. unfold parse_str64, lx_push_str64, tk_push_str64. cbn [lx_new lx_tk tk_new over_capacity tk_max N.ltb N.compare andb].
  unfold tokenize64. cbn [tk_buf tk_loc tk_max app tk_new].
  assert (Er : forall l k, room l k -> k <= u64_limit -> room l k) by auto.
  assert (Hl0 : room (loc_new name) (N.of_nat n + 4)) by (unfold room; cbn [loc_new l_lines l_columns]; lia).
  destruct (room_push (loc_new name) 97 (N.of_nat n + 3)) as (E1 & R1); [eapply room_le; [exact Hl0|lia]|].
  destruct (room_push (loc_push (loc_new name) 97) c_eq (N.of_nat n + 2)) as (E2 & R2); [eapply room_le; [exact R1|lia]|].
  set (l2 := loc_push (loc_push (loc_new name) 97) c_eq) in *.
  destruct (open_tokens (S n) (S (S (S n))) l2) as (l' & ts & lt & E3 & E4 & E5); [lia|eapply room_le; [exact R2|lia]|].
  assert (Et : tokenize_loop64 (S (length (open_text n))) (loc_new name) (open_text n) =
    Some (l', Ok (TMeta (loc_new name) [97] :: TDefining (loc_push (loc_new name) 97) :: ts ++ [TTerminator lt c_semi], []))).
  { unfold open_text in *. cbn [app length]. rewrite app_length, repeat_length. cbn [length].
    replace (S (S (S (S (n + 1))))) with (S (S (S (S (S n))))) by lia.
    eapply one_token; [reflexivity|exact E1|]. eapply one_token; [reflexivity|exact E2|]. exact E3. }
  rewrite Et. cbn [obind lx_append32 lx_tokens lx_new].
  set (toks := TMeta (loc_new name) [97] :: TDefining (loc_push (loc_new name) 97) :: ts ++ [TTerminator lt c_semi]).
  enough (Hnone : append_loop32 [] toks = None) by (rewrite Hnone; reflexivity).
  assert (Ha : forall cur us, append_loop32 cur (us ++ [TTerminator lt c_semi]) = None \/ existsb is_terminator us = true \/
    append_loop32 cur (us ++ [TTerminator lt c_semi]) = append_loop32 (cur ++ us) [TTerminator lt c_semi]).
  { intros cur us. revert cur. induction us as [|u us IH]; intros cur; [right; right; rewrite app_nil_r; reflexivity|].
    cbn [app existsb append_loop32]. destruct (is_terminator u); [right; left; reflexivity|]. cbn [orb].
    destruct (IH (cur ++ [u])) as [H|[H|H]]; [left; exact H|right; left; exact H|right; right]. rewrite H, <- app_assoc. reflexivity. }
  assert (Hno : existsb is_terminator (TMeta (loc_new name) [97] :: TDefining (loc_push (loc_new name) 97) :: ts) = false).
  { cbn [existsb is_terminator orb]. apply (open_trivia ts E5). }
  destruct (Ha [] (TMeta (loc_new name) [97] :: TDefining (loc_push (loc_new name) 97) :: ts)) as [H|[H|H]].
  - change toks with ((TMeta (loc_new name) [97] :: TDefining (loc_push (loc_new name) 97) :: ts) ++ [TTerminator lt c_semi]). rewrite H. reflexivity.
  - congruence.
  - change toks with ((TMeta (loc_new name) [97] :: TDefining (loc_push (loc_new name) 97) :: ts) ++ [TTerminator lt c_semi]). rewrite H. clear H Ha.
    cbn [app append_loop32]. change (is_terminator (TTerminator lt c_semi)) with true. cbn iota.
    unfold build_syntax_rule32, one_final_terminator.
    change (TMeta (loc_new name) [97] :: TDefining (loc_push (loc_new name) 97) :: ts ++ [TTerminator lt c_semi])
      with ((TMeta (loc_new name) [97] :: TDefining (loc_push (loc_new name) 97) :: ts) ++ [TTerminator lt c_semi]).
    rewrite rev_app_distr. cbn [rev app]. change (is_terminator (TTerminator lt c_semi)) with true.
    change ((rev ts ++ [TDefining (loc_push (loc_new name) 97)]) ++ [TMeta (loc_new name) [97]])
      with (rev (TMeta (loc_new name) [97] :: TDefining (loc_push (loc_new name) 97) :: ts)).
    rewrite (existsb_rev _ _ Hno). cbn [negb andb].
    destruct ts as [|t ts]; [cbn [length] in E4; lia|]. pose proof (Forall_inv E5) as Ht. destruct t; try discriminate.
    cbn -[i32_limit read_definition_list32 rd_fuel].
    cbn [length] in E4. injection E4 as E4. unfold rd_fuel.
    match goal with |- context [read_definition_list32 (6 * ?k + 6)%nat ?a _] =>
      replace (6 * k + 6)%nat with (5 + (6 * k + 1))%nat by lia; pose proof (open_list (6 * k + 1) a l ts [TTerminator lt c_semi] (Forall_inv_tail E5)) as Ho end.
    rewrite E4 in Ho. specialize (Ho Hn). rewrite Ho. reflexivity.
Qed.
