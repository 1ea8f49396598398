(** Bounds on what reading an EBNF text costs. *)
From Coq Require Import String List NArith Arith Bool Lia Psatz.
From Verif Require Import Base Ast Tokenizer Lex LexCost SpecText TextFacts SpecTok TokFacts TokRun GramFacts.
Import ListNotations.
Open Scope nat_scope.

(** ** The tokenizer *)
Lemma scan_cost_le : forall q al b, scan_cost q al b <= length b.
Proof.
  induction b as [|c b IH]; cbn; [lia|].
  destruct (c =? q)%N; [lia|]. destruct (negb (al c)); lia.
Qed.
Lemma comment_cost_le : forall b prev d, comment_cost prev d b <= length b.
Proof.
  induction b as [|c b IH]; intros prev d; cbn; [lia|].
  destruct ((prev =? c_star)%N && (c =? c_rpar)%N).
  - destruct d; [lia|]. specialize (IH c d). lia.
  - destruct ((prev =? c_lpar)%N && (c =? c_star)%N); [specialize (IH c (S d)); lia|].
    destruct (negb (is_gap c) && negb (is_terminal c)); [lia|]. specialize (IH c d). lia.
Qed.
Lemma while_cost_le : forall p b, while_cost p b <= length b.
Proof. induction b as [|c b IH]; cbn; [lia|]. destruct (p c); lia. Qed.

Lemma scan_cost_found : forall q al b s, scan_to q al b = SFound s -> scan_cost q al b <= S (length s).
Proof.
  induction b as [|c b IH]; intros s E; cbn in *; [discriminate|].
  destruct (c =? q)%N; [injection E as <-; cbn; lia|].
  destruct (negb (al c)); [discriminate|].
  destruct (scan_to q al b) as [| |s'] eqn:F; try discriminate. injection E as <-.
  specialize (IH _ eq_refl). cbn. lia.
Qed.
Lemma comment_cost_found : forall b prev d l n, comment_loop prev d l b = CFound n -> comment_cost prev d b <= S n.
Proof.
  induction b as [|c b IH]; intros prev d l n E; cbn in *; [discriminate|].
  destruct ((prev =? c_star)%N && (c =? c_rpar)%N).
  - destruct d; [lia|].
    destruct (comment_loop c d (loc_push l c) b) eqn:F; try discriminate.
    injection E as <-. specialize (IH _ _ _ _ F). lia.
  - destruct ((prev =? c_lpar)%N && (c =? c_star)%N).
    + destruct (comment_loop c (S d) (loc_push l c) b) eqn:F; try discriminate.
      injection E as <-. specialize (IH _ _ _ _ F). lia.
    + destruct (negb (is_gap c) && negb (is_terminal c)); [discriminate|].
      destruct (comment_loop c d (loc_push l c) b) eqn:F; try discriminate.
      injection E as <-. specialize (IH _ _ _ _ F). lia.
Qed.
Lemma while_cost_span : forall p b, while_cost p b <= S (span_len p b).
Proof. induction b as [|c b IH]; cbn; [lia|]. destruct (p c); lia. Qed.

Lemma next_cost_le : forall b fl, next_cost b fl <= S (length b).
Proof.
  intros [|c r] fl; [cbn; lia|]. unfold next_cost.
  destruct (one_symbol c); [cbn; lia|].
  destruct (negb fl && match r with [] => true | _ => false end) eqn:E0; [cbn; lia|].
  destruct ((c =? c_squote)%N || (c =? c_dquote)%N); [pose proof (scan_cost_le c is_terminal r); cbn [length]; lia|].
  destruct (c =? c_lpar)%N.
  { destruct r as [|d r2]; [cbn; lia|]. destruct (d =? c_star)%N; [|cbn; lia].
    destruct r2 as [|e r3]; [cbn; lia|]. destruct (e =? c_rpar)%N; [cbn; lia|].
    pose proof (comment_cost_le (e :: r3) d 0). cbn [length] in *. lia. }
  destruct ((c =? c_slash)%N || (c =? c_colon)%N || (c =? c_star)%N).
  { destruct fl; cbn [length]; lia. }
  destruct (c =? c_quest)%N; [pose proof (scan_cost_le c_quest is_special r); cbn [length]; lia|].
  destruct (is_meta_first c); [pose proof (while_cost_le is_meta_char r); cbn [length]; lia|].
  destruct (is_digit c); [pose proof (while_cost_le is_digit r); cbn [length]; lia|].
  destruct (is_gap c); [pose proof (while_cost_le is_gap r); cbn [length]; lia|].
  cbn [length]. lia.
Qed.

Lemma while_found : forall (mk : nat -> token) r p fl t n,
  Ok (option_map (fun n => (mk n, n)) (read_while r p fl)) = Ok (Some (t, n)) -> while_cost p r <= n.
Proof.
  intros mk r p fl t n. unfold read_while.
  destruct (negb fl && (span_len p r =? length r)); intros E; cbn in E; [discriminate|].
  injection E as _ <-. apply while_cost_span.
Qed.

Lemma next_cost_token : forall l b fl t n, read_next l b fl = Ok (Some (t, n)) -> next_cost b fl <= S n.
Proof.
  intros l b fl t n E.
  pose proof (read_next_sound _ _ _ _ _ E) as (rest & _ & _ & Hpos & _).
  destruct b as [|c r]; [discriminate|]. unfold next_cost.
  destruct (one_symbol c) eqn:E1; [lia|]. unfold one_symbol in E1. cbn [existsb] in E1.
  repeat (apply orb_false_iff in E1; destruct E1 as [? E1]).
  unfold read_next in E.
  repeat match goal with H : (c =? _)%N = false |- _ => rewrite H in E; clear H end.
  cbn [orb] in E.
  destruct (negb fl && match r with [] => true | _ => false end); [discriminate|].
  destruct ((c =? c_squote)%N || (c =? c_dquote)%N).
  { unfold terminal_string in E.
    destruct (scan_to c is_terminal r) as [| |s] eqn:F; try discriminate; [destruct fl; discriminate|].
    destruct s as [|x s]; [discriminate|]. injection E as _ <-.
    apply scan_cost_found in F. cbn [length] in *. lia. }
  destruct (c =? c_lpar)%N.
  { destruct r as [|d r2]; [lia|]. destruct (d =? c_star)%N; [|lia].
    destruct r2 as [|e r3]; [lia|]. destruct (e =? c_rpar)%N; [discriminate|].
    unfold comment in E.
    destruct (comment_loop d 0 (loc_push_str l [c_lpar; c_star]) (e :: r3)) as [| |m] eqn:F; try discriminate;
      [destruct fl; discriminate|].
    destruct m as [|m]; [discriminate|]. injection E as _ <-. apply comment_cost_found in F. lia. }
  destruct (c =? c_slash)%N; [cbn [orb]; destruct fl; lia|].
  destruct (c =? c_colon)%N; [cbn [orb]; destruct fl; lia|].
  destruct (c =? c_star)%N; [cbn [orb]; destruct fl; lia|]. cbn [orb].
  destruct (c =? c_quest)%N.
  { unfold special_sequence in E.
    destruct (scan_to c_quest is_special r) as [| |s] eqn:F; try discriminate; [destruct fl; discriminate|].
    injection E as _ <-. apply scan_cost_found in F. lia. }
  destruct (is_meta_first c).
  { apply (while_found (fun n => TMeta l (firstn n (c :: r)))) in E. lia. }
  destruct (is_digit c).
  { apply (while_found (fun n => TInteger l (firstn n (c :: r)))) in E. lia. }
  destruct (is_gap c).
  { apply (while_found (fun n => TGap l (firstn n (c :: r)))) in E. lia. }
  lia.
Qed.

Lemma next_token_length : forall l b fl t n, read_next l b fl = Ok (Some (t, n)) -> 0 < n <= length b.
Proof.
  intros l b fl t n E. apply read_next_sound in E as (rest & -> & -> & Hpos & _). rewrite app_length. lia.
Qed.

Lemma loop_cost_le : forall f l b, loop_cost f l b <= 3 * length b + 1.
Proof.
  induction f as [|f IH]; intros l b; [cbn; lia|]. cbn [loop_cost].
  destruct b as [|c r]; [lia|]. set (b := c :: r) in *.
  pose proof (next_cost_le b false) as Hn.
  destruct (read_next l b false) as [[[t n]|]| | |] eqn:E; try lia.
  pose proof (next_cost_token _ _ _ _ _ E) as Ht. pose proof (next_token_length _ _ _ _ _ E) as Hl.
  specialize (IH (loc_push_str l (firstn n b)) (skipn n b)). rewrite skipn_length in IH. lia.
Qed.

Lemma loop_tokens : forall f l b l' ts rest, tokenize_loop f l b = (l', Ok (ts, rest)) ->
  length ts + length rest <= length b.
Proof.
  induction f as [|f IH]; intros l b l' ts rest E; [discriminate|]. cbn [tokenize_loop] in E.
  destruct b as [|c r]; [injection E as <- <- <-; cbn; lia|]. set (b := c :: r) in *.
  destruct (read_next l b false) as [[[t n]|]| | |] eqn:E2; try discriminate.
  - pose proof (next_token_length _ _ _ _ _ E2) as Hl.
    destruct (tokenize_loop f (loc_push_str l (firstn n b)) (skipn n b)) as (l2 & [(ts2, rest2)| | |]) eqn:E3; try discriminate.
    injection E as <- <- <-. apply IH in E3. rewrite skipn_length in E3. cbn [length]. lia.
  - injection E as <- <- <-. cbn [length]. lia.
Qed.

Lemma tokenize_cost_le : forall t, tokenize_cost t <= 4 * length (tk_buf t) + 1.
Proof.
  intros t. unfold tokenize_cost.
  pose proof (loop_cost_le (S (length (tk_buf t))) (tk_loc t) (tk_buf t)).
  destruct (tokenize_loop (S (length (tk_buf t))) (tk_loc t) (tk_buf t)) as (l & [(ts, rest)| | |]) eqn:E; try lia.
  apply loop_tokens in E. destruct (length rest =? length (tk_buf t)); lia.
Qed.

Lemma push_cost_le : forall t s, push_cost t s <= 4 * length (tk_buf t) + 5 * length s + 1.
Proof.
  intros t s. unfold push_cost. destruct (over_capacity t (length s)); [lia|].
  pose proof (tokenize_cost_le (Tk (tk_max t) (tk_buf t ++ s) (tk_loc t))) as H. cbn [tk_buf] in H.
  rewrite app_length in H. lia.
Qed.

Lemma push_cost_limit : forall t s, (0 < tk_max t)%N -> push_cost t s <= length s + 4 * N.to_nat (tk_max t) + 1.
Proof.
  intros t s Hm. unfold push_cost. destruct (over_capacity t (length s)) eqn:E; [lia|].
  pose proof (tokenize_cost_le (Tk (tk_max t) (tk_buf t ++ s) (tk_loc t))) as H. cbn [tk_buf] in H.
  rewrite app_length in H. unfold over_capacity in E.
  destruct ((0 <? tk_max t)%N && (tk_max t <? N.of_nat (length (tk_buf t)) + N.of_nat (length s))%N) eqn:F; [discriminate|].
  apply andb_false_iff in F as [F|F]; [apply N.ltb_ge in F; lia|]. apply N.ltb_ge in F. lia.
Qed.

Lemma push_tokens : forall t s t' ts, tk_push_str t s = (t', Ok ts) ->
  length ts + length (tk_buf t') <= length (tk_buf t) + length s.
Proof.
  intros t s t' ts E. unfold tk_push_str in E. destruct (over_capacity t (length s)); [discriminate|].
  unfold tokenize in E. cbn [tk_buf tk_loc tk_max] in E.
  destruct (tokenize_loop (S (length (tk_buf t ++ s))) (tk_loc t) (tk_buf t ++ s)) as (l & [(ts2, rest)| | |]) eqn:E2; try discriminate.
  injection E as <- <-. apply loop_tokens in E2. rewrite app_length in E2. cbn [tk_buf]. lia.
Qed.

Lemma flush_cost_le : forall t, tk_flush_cost t <= 2 * length (tk_buf t) + 1.
Proof.
  intros t. unfold tk_flush_cost. pose proof (next_cost_le (tk_buf t) true).
  destruct (read_next (tk_loc t) (tk_buf t) true) as [[[tk n]|]| | |] eqn:E; try lia.
  pose proof (next_token_length _ _ _ _ _ E). rewrite skipn_length. lia.
Qed.

Lemma flush_tokens : forall t t' ts, tk_flush t = (t', Ok ts) -> length ts <= S (length (tk_buf t)).
Proof.
  intros t t' ts E. unfold tk_flush in E.
  destruct (read_next (tk_loc t) (tk_buf t) true) as [[[tk n]|]| | |] eqn:E2; try discriminate; cbn [tk_buf] in E.
  - pose proof (next_token_length _ _ _ _ _ E2).
    destruct (skipn n (tk_buf t)); [|discriminate]. injection E as <- <-. cbn [length app]. lia.
  - cbn [skipn] in E. destruct (tk_buf t); [|discriminate]. injection E as <- <-. cbn. lia.
Qed.

(** ** The recursive descent *)
Lemma skip_cost_le : forall ts, skip_cost ts + length (skip_trivia ts) <= length ts + 1.
Proof. induction ts as [|t ts IH]; cbn; [lia|]. destruct (is_gap_token t || is_comment t); cbn [length]; lia. Qed.
Lemma skip_cost_end : forall ts, skip_trivia ts = [] -> skip_cost ts <= length ts.
Proof. induction ts as [|t ts IH]; cbn; [lia|]. destruct (is_gap_token t || is_comment t); intros E; [specialize (IH E); lia|discriminate]. Qed.

Lemma rmi_cost_le : forall ts id lo i l nx, rmi_loop id lo ts = (i, l, nx) -> rmi_cost ts + length nx <= length ts + 1.
Proof.
  induction ts as [|t ts IH]; intros id lo i l nx E; [cbn in *; injection E as _ _ <-; cbn; lia|].
  destruct t; cbn [rmi_loop rmi_cost length] in *;
    try (injection E as _ _ <-; cbn [length]; lia); apply IH in E; lia.
Qed.
Lemma meta_cost_le : forall ts i l nx, read_meta_identifier ts = (i, l, nx) -> meta_cost ts + length nx <= length ts + 2.
Proof.
  intros ts i l nx E. unfold read_meta_identifier in E. unfold meta_cost.
  destruct (rmi_loop [] None (skip_trivia ts)) as ((id, lo), next) eqn:F. injection E as _ _ <-.
  apply rmi_cost_le in F. pose proof (skip_cost_le ts). lia.
Qed.

Lemma close_cost_le : forall o c ts d, close_cost o c d ts <= length ts.
Proof.
  induction ts as [|t ts IH]; intros d; cbn; [lia|].
  destruct (o t); [specialize (IH (S d)); lia|]. destruct (c t); [|specialize (IH d); lia].
  destruct d; [lia|]. specialize (IH d). lia.
Qed.
Lemma close_cost_found : forall o c ts d sub nx, find_close o c d ts = Some (sub, nx) ->
  close_cost o c d ts = S (length sub) /\ length ts = S (length sub + length nx).
Proof.
  induction ts as [|t ts IH]; intros d sub nx E; cbn in *; [discriminate|].
  destruct (o t).
  - destruct (find_close o c (S d) ts) as [(a, b)|] eqn:F; [|discriminate]. injection E as <- <-.
    apply IH in F as (F1 & F2). cbn [length]. lia.
  - destruct (c t).
    + destruct d; [injection E as <- <-; cbn; lia|].
      destruct (find_close o c d ts) as [(a, b)|] eqn:F; [|discriminate]. injection E as <- <-.
      apply IH in F as (F1 & F2). cbn [length]. lia.
    + destruct (find_close o c d ts) as [(a, b)|] eqn:F; [|discriminate]. injection E as <- <-.
      apply IH in F as (F1 & F2). cbn [length]. lia.
Qed.

(** The price of [n] tokens. *)
Definition fee (n : nat) : nat := n * n + 40 * n.
Lemma fee_drop : forall m n j, m + j <= n -> fee m + 40 * j <= fee n.
Proof. intros m n j H. unfold fee. nia. Qed.
Lemma fee_split : forall s m n, s + m + 2 <= n -> fee s + fee m + s + 80 <= fee n.
Proof. intros s m n H. unfold fee. nia. Qed.
Lemma fee_add : forall a b, fee a + fee b <= fee (a + b).
Proof. intros a b. unfold fee. nia. Qed.
Lemma fee_convex : forall x y z, y <= x -> fee x + fee (y + z) <= fee y + fee (x + z).
Proof. intros x y z H. unfold fee. nia. Qed.

(** What a call costs, with the price of the tokens it leaves. *)
Definition charged {A} (r : res (A * list token)) (k : nat) (c : nat) (ts : list token) : Prop :=
  match r with
  | Ok (_, nx) => k + fee (length nx) <= fee (length ts) + c /\ length nx <= length ts
  | _ => k <= fee (length ts) + c
  end.
Definition stops_sd (nx : list token) : Prop :=
  match nx with
  | [] => True
  | TDefSep _ _ :: _ => True
  | t :: _ => is_terminator t = true
  end.

Definition charges (f : nat) : Prop := forall all ts,
  dl_cost f all ts <= fee (length ts) + 30 /\
  (charged (read_single_definition f all ts) (sd_cost f all ts) 24 ts /\
   match read_single_definition f all ts with Ok (_, nx) => stops_sd nx | _ => True end) /\
  charged (read_syntactic_term f all ts) (term_cost f all ts) 20 ts /\
  charged (read_syntactic_factor f all ts) (factor_cost f all ts) 14 ts /\
  charged (read_syntactic_primary f all ts) (primary_cost f all ts) 6 ts.

Lemma charges_O : charges 0.
Proof. intros all ts. cbn. repeat split; lia. Qed.


Lemma primary_charges : forall f, charges f -> forall all ts,
  charged (read_syntactic_primary (S f) all ts) (primary_cost (S f) all ts) 6 ts.
Proof.
  intros f IH all ts. cbn [read_syntactic_primary primary_cost].
  pose proof (skip_cost_le ts) as Hs. pose proof (skip_cost_end ts) as He.
  pose proof (skip_length ts) as Hlen.
  assert (Henc : forall o c r (mk : definition_list -> primary) e, S (length r) = length (skip_trivia ts) ->
    forall k, k <= 3 + skip_cost ts + (close_cost o c 0 r + match find_close o c 0 r with
                                          | Some (sub, _) => dl_cost f sub sub | None => 0 end) ->
    charged (bind (match find_close o c 0 r with
                             | Some (sub, next) => let? d := read_definition_list f sub sub in Ok (d, next)
                             | None => Err e
                             end) (fun '(d, next) => Ok (mk d, next))) k 6 ts).
  { intros o c r mk e Hr k Hk.
    destruct (find_close o c 0 r) as [(sub, nx)|] eqn:F.
    - apply close_cost_found in F as (F1 & F2). rewrite F1 in Hk.
      destruct (IH sub sub) as (Hd & _). 
      pose proof (fee_split (length sub) (length nx) (length (skip_trivia ts)) ltac:(lia)) as Hf.
      pose proof (fee_drop (length (skip_trivia ts)) (length ts) (length ts - length (skip_trivia ts)) ltac:(lia)) as Hg.
      destruct (read_definition_list f sub sub); cbn [bind charged]; try lia; split; lia.
    - cbn [bind charged]. pose proof (close_cost_le o c r 0).
      pose proof (fee_drop 0 (length ts) (length ts) ltac:(lia)). lia. }
  destruct (skip_trivia ts) as [|t r] eqn:E.
  { cbn [charged]. specialize (He eq_refl).
    pose proof (fee_drop 0 (length ts) (length ts) ltac:(lia)). cbn [length] in *. split; lia. }
  assert (Hdrop : fee (length (t :: r)) + 40 * (length ts - length (t :: r)) <= fee (length ts)) by (apply fee_drop; lia).
  assert (Hdrop2 : fee (length r) + 40 <= fee (length (t :: r))).
  { pose proof (fee_drop (length r) (length (t :: r)) 1 ltac:(cbn; lia)). lia. }
  cbn [length] in *.
  destruct t; try (cbn [charged length]; split; lia).
  - destruct (str_eqb s [c_lpar; c_slash] && match r with [] => false | t :: _ => is_end_group t end).
    + cbn [charged]. lia.
    + apply Henc; [cbn [length]; lia|lia].
  - destruct (str_eqb s [c_lpar; c_colon] && match r with [] => false | t :: _ => is_end_group t end).
    + cbn [charged]. lia.
    + apply Henc; [cbn [length]; lia|lia].
  - apply Henc; [cbn [length]; lia|lia].
  - destruct (read_meta_identifier (TMeta l s :: r)) as ((id, lo), nx) eqn:F.
    pose proof (meta_cost_le _ _ _ _ F) as Hm. cbn [length] in Hm. cbn [charged].
    assert (length nx <= S (length r)).
    { unfold meta_cost in Hm. cbn [skip_cost is_gap_token is_comment orb] in Hm. cbn [skip_trivia is_gap_token is_comment orb rmi_cost] in Hm. lia. }
    pose proof (fee_drop (length nx) (S (length r)) (S (length r) - length nx) ltac:(lia)). split; lia.
Qed.

Lemma charged_more : forall A (r : res (A * list token)) k c ts k' c' ts' j,
  charged r k c ts -> length ts + j <= length ts' -> k' + c <= k + c' + 40 * j -> charged r k' c' ts'.
Proof.
  intros A r k c ts k' c' ts' j H Hl Hk. pose proof (fee_drop _ _ _ Hl).
  destruct r as [(a, nx)| | |]; cbn [charged] in *; lia.
Qed.

Lemma charged_map : forall A B (r : res (A * list token)) k c ts (g : A -> B),
  charged r k c ts -> charged (let? (a, nx) := r in Ok (g a, nx)) k c ts.
Proof. intros A B r k c ts g H. destruct r as [(a, nx)| | |]; exact H. Qed.

Lemma factor_charges : forall f, charges f -> forall all ts,
  charged (read_syntactic_factor (S f) all ts) (factor_cost (S f) all ts) 14 ts.
Proof.
  intros f IH all ts. cbn [read_syntactic_factor factor_cost].
  pose proof (skip_cost_le ts) as Hs. pose proof (skip_length ts) as Hlen.
  assert (Hone : charged (let? (n, next) := Ok (1%N, skip_trivia ts) in
      let? (p, next) := read_syntactic_primary f all next in Ok (Factor n p, next))
      (1 + skip_cost ts + (1 + primary_cost f all (skip_trivia ts))) 14 ts).
  { cbn [bind]. destruct (IH all (skip_trivia ts)) as (_ & _ & _ & _ & Hp).
    apply (charged_map _ _ _ _ _ _ (fun p => Factor 1%N p)).
    eapply charged_more with (j := length ts - length (skip_trivia ts)); [exact Hp|lia|lia]. }
  destruct (skip_trivia ts) as [|t r] eqn:E; [exact Hone|].
  destruct t; try exact Hone.
  cbn [length] in *. clear Hone.
  destruct (parse_u32 s) as [n|]; [|cbn [charged bind]; pose proof (fee_drop 0 (length ts) (length ts) ltac:(lia)); lia].
  pose proof (skip_cost_le r) as Hs2. pose proof (skip_length r) as Hlen2.
  pose proof (fee_drop 0 (length ts) (length ts) ltac:(lia)) as Hall.
  destruct (skip_trivia r) as [|t2 r2] eqn:E2; [cbn [charged bind] in *; cbn [length] in *; lia|].
  cbn [length] in *.
  destruct t2; try (cbn [charged bind]; lia).
  cbn [bind].
  pose proof (skip_cost_le r2) as Hs3. pose proof (skip_length r2) as Hlen3.
  destruct (IH all (skip_trivia r2)) as (_ & _ & _ & _ & Hp).
  apply (charged_map _ _ _ _ _ _ (fun p => Factor n p)).
  eapply charged_more with (j := length ts - length (skip_trivia r2)); [exact Hp|lia|lia].
Qed.

Lemma term_charges : forall f, charges f -> forall all ts,
  charged (read_syntactic_term (S f) all ts) (term_cost (S f) all ts) 20 ts.
Proof.
  intros f IH all ts. cbn [read_syntactic_term term_cost].
  destruct (IH all ts) as (_ & _ & _ & Hf & _).
  destruct (read_syntactic_factor f all ts) as [(fa, nx)| | |]; cbn [bind charged] in *; try lia.
  destruct Hf as (Hf & Hl).
  pose proof (skip_cost_le nx) as Hs. pose proof (skip_length nx) as Hlen.
  assert (Hone : forall k, k <= 1 + factor_cost f all ts + (skip_cost nx + 1) ->
     charged (Ok (Term fa None, skip_trivia nx)) k 20 ts).
  { intros k Hk. cbn [charged].
    pose proof (fee_drop (length (skip_trivia nx)) (length nx) (length nx - length (skip_trivia nx)) ltac:(lia)). lia. }
  destruct (skip_trivia nx) as [|t r] eqn:E; [apply Hone; lia|].
  destruct t; try (apply Hone; lia).
  clear Hone. cbn [length] in *.
  destruct (IH all r) as (_ & _ & _ & Hf2 & _).
  apply (charged_map _ _ _ _ _ _ (fun ex => Term fa (Some ex))).
  pose proof (fee_drop (length r) (length nx) (length nx - length r) ltac:(lia)) as Hd.
  destruct (read_syntactic_factor f all r) as [(ex, nx2)| | |]; cbn [charged] in *; lia.
Qed.

Lemma sd_charges : forall f, charges f -> forall all ts,
  charged (read_single_definition (S f) all ts) (sd_cost (S f) all ts) 24 ts /\
  match read_single_definition (S f) all ts with Ok (_, nx) => stops_sd nx | _ => True end.
Proof.
  intros f IH all ts. cbn [read_single_definition sd_cost].
  destruct (IH all ts) as (_ & _ & Ht & _).
  destruct (read_syntactic_term f all ts) as [(tm, nx)| | |]; cbn [bind charged] in *; try (split; [lia|exact I]).
  destruct Ht as (Ht & Hl).
  pose proof (skip_cost_le nx) as Hs. pose proof (skip_length nx) as Hlen.
  destruct (skip_trivia nx) as [|t r] eqn:E.
  { cbn [charged length stops_sd]. pose proof (skip_cost_end nx E).
    pose proof (fee_drop 0 (length nx) (length nx) ltac:(lia)). split; [lia|exact I]. }
  cbn [length] in *.
  pose proof (fee_drop (S (length r)) (length nx) (length nx - S (length r)) ltac:(lia)) as Hd.
  pose proof (fee_drop (length r) (S (length r)) 1 ltac:(lia)) as Hd1.
  destruct t; cbn [is_terminator];
    try (split; [cbn [charged length]; lia|first [exact I | reflexivity]]).
  destruct (IH all r) as (_ & (Hsd & Hst) & _).
  split.
  - apply (charged_map _ _ _ _ _ _ (fun tms => tm :: tms)).
    destruct (read_single_definition f all r) as [(tms, nx2)| | |]; cbn [charged] in *; lia.
  - destruct (read_single_definition f all r) as [(tms, nx2)| | |]; cbn [bind]; auto.
Qed.

Lemma dl_charges : forall f, charges f -> forall all ts, dl_cost (S f) all ts <= fee (length ts) + 30.
Proof.
  intros f IH all ts. cbn [dl_cost].
  destruct (IH all ts) as (_ & (Hsd & Hst) & _).
  destruct (read_single_definition f all ts) as [(sd, nx)| | |]; cbn [charged] in *; try lia.
  destruct Hsd as (Hsd & Hl).
  pose proof (skip_cost_le nx) as Hs. pose proof (skip_length nx) as Hlen.
  destruct nx as [|t r]; [cbn [skip_trivia skip_cost]; lia|].
  assert (E : skip_trivia (t :: r) = t :: r).
  { destruct t; cbn in *; try discriminate; reflexivity. }
  rewrite E in *. cbn [length] in *.
  pose proof (fee_drop (length r) (S (length r)) 1 ltac:(lia)) as Hd1.
  destruct (is_terminator t) eqn:Et; [lia|].
  destruct t; cbn in Hst; try discriminate Hst; try discriminate Et.
  destruct (IH all r) as (Hdl & _). lia.
Qed.

Theorem charges_all : forall f, charges f.
Proof.
  induction f as [|f IH]; [exact charges_O|]. intros all ts.
  split; [apply dl_charges; exact IH|]. split; [apply sd_charges; exact IH|].
  split; [apply term_charges; exact IH|]. split; [apply factor_charges; exact IH|apply primary_charges; exact IH].
Qed.

Lemma build_cost_le : forall ts, build_cost ts <= fee (length ts) + 40.
Proof.
  intros ts. unfold build_cost.
  destruct (read_meta_identifier ts) as ((id, lo), nx) eqn:E.
  pose proof (meta_cost_le _ _ _ _ E) as Hm.
  pose proof (skip_cost_le nx) as Hs. pose proof (skip_length nx) as Hlen.
  assert (Hn : length nx <= length ts).
  { unfold read_meta_identifier in E. destruct (rmi_loop [] None (skip_trivia ts)) as ((i2, l2), n2) eqn:F.
    injection E as _ _ <-. pose proof (skip_length ts). pose proof (rmi_cost_le _ _ _ _ _ _ F).
    destruct (skip_trivia ts) as [|t r]; [cbn in F; injection F as _ _ <-; lia|].
    destruct t; cbn [rmi_cost] in *; lia. }
  pose proof (fee_drop (length nx) (length ts) (length ts - length nx) ltac:(lia)) as Hd.
  destruct (skip_trivia nx) as [|t r]; [unfold fee; cbn [length] in *; lia|]. cbn [length] in *.
  pose proof (fee_drop (length r) (length nx) (length nx - length r) ltac:(lia)) as Hd2.
  assert (Hr : dl_cost (rd_fuel ts) ts r <= fee (length r) + 30) by apply charges_all.
  destruct lo; [|lia]. destruct (is_defining_symbol t); lia.
Qed.

(** ** The lexer *)
Lemma append_cost_le : forall new cur,
  match append_loop cur new with
  | (cur', Ok _) => append_cost cur new + fee (length cur') <= fee (length cur + length new) + fee (length new)
                    /\ length cur' <= length cur + length new
  | _ => append_cost cur new <= fee (length cur + length new) + fee (length new)
  end.
Proof.
  induction new as [|t new IH]; intros cur; [cbn [append_loop append_cost length]; replace (length cur + 0) with (length cur) by lia; split; lia|].
  cbn [append_loop append_cost].
  assert (Hstep : fee (length new) + 41 + length new <= fee (length (t :: new))) by (unfold fee; cbn [length]; nia).
  destruct (is_terminator t).
  - pose proof (build_cost_le (cur ++ [t])) as Hb. rewrite app_length in Hb. cbn [length] in Hb.
    pose proof (fee_add (length cur + 1) (length new)) as Ha.
    replace (length cur + length (t :: new)) with (length cur + 1 + length new) by (cbn [length]; lia).
    destruct (build_syntax_rule (cur ++ [t])); try lia.
    specialize (IH []). cbn [length Nat.add] in IH.
    destruct (append_loop [] new) as (c & [rs| | |]); lia.
  - specialize (IH (cur ++ [t])). rewrite app_length in IH.
    replace (length cur + length (t :: new)) with (length cur + length [t] + length new) by (cbn [length]; lia).
    destruct (append_loop (cur ++ [t]) new) as (c & [rs| | |]); lia.
Qed.

Definition total (ss : list str) : nat := length (concat ss).

Lemma pieces_cost_le : forall ss lx,
  pieces_cost lx ss <=
    fee (length (lx_tokens lx) + length (tk_buf (lx_tk lx)) + total ss + 1) +
    fee (length (tk_buf (lx_tk lx)) + total ss + 1) +
    (5 * (length (tk_buf (lx_tk lx)) + total ss) + 1) * S (length ss).
Proof.
  induction ss as [|s ss IH]; intros lx; unfold total.
  - cbn [pieces_cost concat length]. unfold lx_flush_cost.
    pose proof (flush_cost_le (lx_tk lx)) as Hc. unfold lx_append_cost.
    destruct (tk_flush (lx_tk lx)) as (tk & [new| | |]) eqn:E; cbn [snd]; try lia.
    apply flush_tokens in E. pose proof (append_cost_le new (lx_tokens lx)) as Ha.
    set (T := length (lx_tokens lx)) in *. set (b := length (tk_buf (lx_tk lx))) in *.
    pose proof (fee_drop (T + length new) (T + b + 0 + 1) 0 ltac:(lia)).
    pose proof (fee_drop (length new) (b + 0 + 1) 0 ltac:(lia)).
    destruct (append_loop (lx_tokens lx) new) as (c & [rs| | |]); lia.
  - cbn [pieces_cost concat]. rewrite app_length. fold (total ss).
    unfold lx_push_cost, lx_push_str. pose proof (push_cost_le (lx_tk lx) s) as Hc.
    set (T := length (lx_tokens lx)) in *. set (b := length (tk_buf (lx_tk lx))) in *.
    destruct (tk_push_str (lx_tk lx) s) as (tk & r) eqn:E. cbn [snd].
    unfold lx_append_cost, lx_append.
    assert (Hmul : push_cost (lx_tk lx) s + (5 * (b + (length s + total ss)) + 1) * S (length ss) <=
       (5 * (b + (length s + total ss)) + 1) * S (length (s :: ss))) by (cbn [length]; nia).
    destruct r as [new| | |]; try lia.
    apply push_tokens in E. fold b in E. pose proof (append_cost_le new (lx_tokens lx)) as Ha. fold T in Ha.
    destruct (append_loop (lx_tokens lx) new) as (cur & [rs| | |]) eqn:F.
    2-4: pose proof (fee_drop (T + length new) (T + b + (length s + total ss) + 1) 0 ltac:(lia));
      pose proof (fee_drop (length new) (b + (length s + total ss) + 1) 0 ltac:(lia)); lia.
    specialize (IH (Lx tk cur)). cbn [lx_tokens lx_tk] in IH. destruct Ha as (Ha & Hl).
    set (b' := length (tk_buf tk)) in *.
    pose proof (fee_convex (T + length new) (length cur) (b' + total ss + 1) ltac:(lia)) as H1.
    replace (length cur + b' + total ss + 1) with (length cur + (b' + total ss + 1)) in IH by lia.
    pose proof (fee_drop (T + length new + (b' + total ss + 1)) (T + b + (length s + total ss) + 1) 0 ltac:(lia)) as H2.
    pose proof (fee_add (length new) (b' + total ss + 1)) as H3.
    pose proof (fee_drop (length new + (b' + total ss + 1)) (b + (length s + total ss) + 1) 0 ltac:(lia)) as H4.
    assert (H5 : (5 * (b' + total ss) + 1) * S (length ss) <= (5 * (b + (length s + total ss)) + 1) * S (length ss))
      by (apply Nat.mul_le_mono_r; lia).
    lia.
Qed.

Theorem reading_cost : forall name max ss,
  pieces_cost (lx_new name max) ss <= 84 * (total ss + 1) * (total ss + length ss + 1).
Proof.
  intros name max ss. pose proof (pieces_cost_le ss (lx_new name max)) as H.
  cbn [lx_new lx_tk lx_tokens tk_new tk_buf length Nat.add] in H. unfold fee in H.
  set (n := total ss) in *. set (k := length ss) in *. clearbody n k. nia.
Qed.

(** ** The square is reached *)

(** A comment that is not closed yet. *)
Definition opened (k : nat) : str := c_lpar :: c_star :: repeat 97%N k.

Lemma opened_loop : forall k l, comment_loop 97%N 0 l (repeat 97%N k) = CEnd.
Proof. induction k as [|k IH]; intros l; cbn; [reflexivity|]. rewrite IH. reflexivity. Qed.
Lemma opened_cost : forall k, comment_cost 97%N 0 (repeat 97%N k) = k.
Proof. induction k as [|k IH]; cbn; [reflexivity|]. rewrite IH. reflexivity. Qed.
Lemma opened_next : forall k l, read_next l (opened (S k)) false = Ok None.
Proof.
  intros k l. unfold opened. cbn. rewrite opened_loop. reflexivity.
Qed.
Lemma opened_next_cost : forall k, S k <= next_cost (opened (S k)) false.
Proof. intros k. unfold opened. cbn. rewrite opened_cost. lia. Qed.
Lemma opened_more : forall k, opened k ++ [97%N] = opened (S k).
Proof.
  intros k. unfold opened. cbn [app]. do 2 f_equal.
  induction k as [|k IH]; cbn; [reflexivity|]. rewrite IH. reflexivity.
Qed.

Lemma opened_push : forall k l ts,
  lx_push_str (Lx (Tk 0%N (opened k) l) ts) [97%N] = (Lx (Tk 0%N (opened (S k)) l) ts, Ok []).
Proof.
  intros k l ts. unfold lx_push_str, tk_push_str, over_capacity. cbn [lx_tk tk_max tk_buf tk_loc N.ltb N.compare andb].
  rewrite opened_more. unfold tokenize. cbn [tk_max tk_buf tk_loc tokenize_loop].
  pose proof (opened_next k l) as E. unfold opened in *.
  cbv beta iota. rewrite E. cbn [lx_append append_loop lx_tokens]. reflexivity.
Qed.
Lemma opened_push_cost : forall k l ts, S k <= lx_push_cost (Lx (Tk 0%N (opened k) l) ts) [97%N].
Proof.
  intros k l ts. unfold lx_push_cost, push_cost, over_capacity. cbn [lx_tk tk_max tk_buf tk_loc N.ltb N.compare andb].
  rewrite opened_more. unfold tokenize_cost. cbn [tk_max tk_buf tk_loc loop_cost].
  pose proof (opened_next_cost k) as E. unfold opened in *. cbv beta iota. lia.
Qed.

Lemma opened_pieces : forall n k l ts rest,
  n * (2 * k + n + 1) <= 2 * pieces_cost (Lx (Tk 0%N (opened k) l) ts) (repeat [97%N] n ++ rest).
Proof.
  induction n as [|n IH]; intros k l ts rest; [cbn [Nat.mul]; lia|].
  cbn [repeat app pieces_cost]. rewrite opened_push.
  pose proof (opened_push_cost k l ts). specialize (IH (S k) l ts rest). nia.
Qed.

Theorem opened_squared : forall name n rest,
  n * n <= 2 * pieces_cost (lx_new name 0%N) ([c_lpar] :: [c_star] :: repeat [97%N] n ++ rest).
Proof.
  intros name n rest. cbn [pieces_cost].
  assert (E : lx_push_str (lx_new name 0%N) [c_lpar] = (Lx (Tk 0%N [c_lpar] (loc_new name)) [], Ok [])) by reflexivity.
  rewrite E. clear E.
  assert (E : lx_push_str (Lx (Tk 0%N [c_lpar] (loc_new name)) []) [c_star] = (Lx (Tk 0%N (opened 0) (loc_new name)) [], Ok []))
    by reflexivity.
  rewrite E. clear E. pose proof (opened_pieces n 0 (loc_new name) [] rest). nia.
Qed.

(** Every token is moved past every token after it. *)
Lemma append_moves : forall new cur cur' rs, append_loop cur new = (cur', Ok rs) ->
  length new * S (length new) <= 2 * append_cost cur new.
Proof.
  induction new as [|t new IH]; intros cur cur' rs E; [cbn; lia|].
  cbn [append_loop append_cost] in *. cbn [length].
  destruct (is_terminator t).
  - destruct (build_syntax_rule (cur ++ [t])); try discriminate.
    destruct (append_loop [] new) as (c & [rs2| | |]) eqn:F; try discriminate.
    specialize (IH _ _ _ F). nia.
  - specialize (IH _ _ _ E). nia.
Qed.

Theorem tokens_squared : forall name s rs ts, parse_str name s = Ok rs -> lexes (loc_new name) s ts ->
  (length ts - 2) * (length ts - 1) <= 2 * parse_str_cost name s.
Proof.
  intros name s rs ts E H. apply lexes_steps in H as (ts1 & l' & b' & ts2 & Hst & Hstuck & Hf & ->).
  assert (H2 : length ts2 <= 2).
  { unfold flushed in Hf. destruct b' as [|c0 r0]; [injection Hf as <-; cbn; lia|].
    destruct (read_next l' (c0 :: r0) true) as [[(t, n)|]| | |]; try discriminate. injection Hf as <-. cbn. lia. }
  assert (Ht : tl (loc_new name) s = (l', Ok (ts1, b'))) by (apply tl_ok; split; assumption).
  unfold tl in Ht.
  assert (Hp : tk_push_str (tk_new name 0%N) s = (Tk 0%N b' l', Ok ts1)).
  { unfold tk_push_str, over_capacity, tk_new. cbn [tk_max tk_buf tk_loc N.ltb N.compare andb app].
    unfold tokenize. cbn [tk_max tk_buf tk_loc]. rewrite Ht. reflexivity. }
  unfold parse_str in E. unfold parse_str_cost. cbn [pieces_cost]. unfold lx_push_cost.
  unfold lx_push_str in E. cbn [lx_new lx_tk] in *. rewrite Hp in *. cbn [snd lx_append_cost lx_append lx_tokens] in *.
  change (lx_tokens (lx_new name 0%N)) with (@nil token) in E.
  destruct (append_loop [] ts1) as (c & [rs1| | |]) eqn:F; cbn iota beta in E; cbn [bind] in E; try discriminate.
  apply append_moves in F. rewrite app_length. change (lx_tokens (lx_new name 0%N)) with (@nil token).
  assert (Hm : (length ts1 + length ts2 - 2) * (length ts1 + length ts2 - 1) <= length ts1 * S (length ts1))
    by (apply Nat.mul_le_mono; lia).
  lia.
Qed.

(** ** Brackets inside brackets *)

(** [n] round brackets around the token [t]. *)
Inductive nest (t : token) : nat -> list token -> Prop :=
| nest_0 : nest t 0 [t]
| nest_S : forall n ts l l', nest t n ts -> nest t (S n) (TStartGroup l :: ts ++ [TEndGroup l']).

Definition word (t : token) : Prop := match t with TTerminal _ _ _ => True | _ => False end.

Lemma nest_length : forall t n ts, nest t n ts -> length ts = 2 * n + 1.
Proof. intros t n ts H. induction H; [reflexivity|]. cbn [length]. rewrite app_length. cbn [length]. lia. Qed.

Lemma nest_close : forall t, word t -> forall n ts, nest t n ts -> forall d rest,
  find_close is_start_group is_end_group d (ts ++ rest) =
  match find_close is_start_group is_end_group d rest with
  | Some (a, b) => Some (ts ++ a, b)
  | None => None
  end.
Proof.
  intros t Ht n ts H. induction H as [|n ts l l' H IH]; intros d rest.
  - destruct t; try destruct Ht. cbn. reflexivity.
  - cbn [app find_close is_start_group]. rewrite <- app_assoc, IH. cbn [app find_close is_start_group is_end_group].
    destruct (find_close is_start_group is_end_group d rest) as [(a, b)|]; [|reflexivity].
    cbn [app]. rewrite <- app_assoc. reflexivity.
Qed.
Lemma nest_found : forall t, word t -> forall n ts, nest t n ts -> forall l rest,
  find_close is_start_group is_end_group 0 (ts ++ TEndGroup l :: rest) = Some (ts, rest).
Proof.
  intros t Ht n ts H l rest. rewrite (nest_close t Ht n ts H). cbn [find_close is_start_group is_end_group].
  rewrite app_nil_r. reflexivity.
Qed.

Lemma nest_descend : forall t, word t -> forall n ts, nest t n ts -> forall f all rest,
  n * n <= primary_cost (5 * n + f) all (ts ++ rest).
Proof.
  intros t Ht n ts H. induction H as [|n ts l l' H IH]; intros f all rest; [lia|].
  replace (5 * S n + f) with (S (S (S (S (S (5 * n + f)))))) by lia.
  cbn [app]. rewrite <- app_assoc. cbn [app].
  cbn [primary_cost skip_cost skip_trivia is_gap_token is_comment orb].
  rewrite (nest_found t Ht n ts H).
  destruct (close_cost_found _ _ _ _ _ _ (nest_found t Ht n ts H l' rest)) as (-> & _).
  rewrite (nest_length _ _ _ H).
  specialize (IH f ts []). rewrite app_nil_r in IH.
  assert (Hin : skip_trivia ts = ts).
  { destruct H as [|n ts l2 l3 H]; [destruct t; try destruct Ht; reflexivity|reflexivity]. }
  assert (Hd : primary_cost (5 * n + f) ts ts <= dl_cost (S (S (S (S (5 * n + f))))) ts ts).
  { cbn [dl_cost sd_cost term_cost]. 
    assert (Hf : primary_cost (5 * n + f) ts ts <= factor_cost (S (5 * n + f)) ts ts).
    { cbn [factor_cost]. rewrite Hin. destruct H as [|n ts l2 l3 H]; [destruct t; try destruct Ht; lia|lia]. }
    lia. }
  nia.
Qed.
