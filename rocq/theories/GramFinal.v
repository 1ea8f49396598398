(** A final terminator changes nothing. *)
From Coq Require Import String List NArith Arith Bool Lia.
From Verif Require Import Base Ident Tokenizer Ast Lex SpecText TextFacts SpecTok TokFacts TokRun
  SpecLex LexRun SpecGram GramFacts GramText.
Import ListNotations.
Open Scope nat_scope.

Section Final.
Variable tc : char.
Definition fin (t : token) : token := match t with TEOF l => TTerminator l tc | _ => t end.
Lemma fin_loc : forall t, tok_loc (fin t) = tok_loc t.
Proof. destruct t; reflexivity. Qed.
Lemma skip_fin : forall ts, skip_trivia (map fin ts) = map fin (skip_trivia ts).
Proof. induction ts as [|t ts IH]; [reflexivity|]. cbn [map skip_trivia]. destruct t; cbn; auto. Qed.
Lemma find_close_fin : forall o c, brackets o c -> forall ts d, find_close o c d (map fin ts) =
  match find_close o c d ts with Some (a, b) => Some (map fin a, map fin b) | None => None end.
Proof.
  intros o c Hb. induction ts as [|t ts IH]; intros d; [reflexivity|]. cbn [map find_close].
  assert (Eo : o (fin t) = o t) by (destruct Hb; destruct t; reflexivity).
  assert (Ec : c (fin t) = c t) by (destruct Hb; destruct t; reflexivity). rewrite Eo, Ec.
  destruct (o t); [|destruct (c t); [destruct d|]]; try reflexivity;
    rewrite IH; match goal with |- context [find_close o c ?d ts] => destruct (find_close o c d ts) as [[a b]|] end; reflexivity.
Qed.
Lemma rmi_loop_fin : forall ts cur l, rmi_loop cur l (map fin ts) =
  let '(id, l', next) := rmi_loop cur l ts in (id, l', map fin next).
Proof.
  induction ts as [|t ts IH]; intros cur l; [reflexivity|]. cbn [map]. destruct t; cbn [fin rmi_loop]; try reflexivity; try apply IH.
Qed.
Lemma rmi_fin : forall ts, read_meta_identifier (map fin ts) =
  let '(id, l', next) := read_meta_identifier ts in (id, l', map fin next).
Proof.
  intros ts. unfold read_meta_identifier. rewrite skip_fin, rmi_loop_fin.
  destruct (rmi_loop [] None (skip_trivia ts)) as ((id & l') & next). reflexivity.
Qed.
Lemma rev_fin : forall all, match rev (map fin all) with t :: _ => tok_loc t | [] => loc_new (of_string "<unknown>") end
  = match rev all with t :: _ => tok_loc t | [] => loc_new (of_string "<unknown>") end.
Proof. intros all. rewrite <- map_rev. destruct (rev all); [reflexivity|]. cbn [map]. apply fin_loc. Qed.
Lemma followed_fin : forall r, match map fin r with t :: _ => is_end_group t | [] => false end
  = match r with t :: _ => is_end_group t | [] => false end.
Proof. destruct r as [|[] ?]; reflexivity. Qed.
Lemma bind_ok2 : forall {A B} (m : res (A * list token)) (f : A * list token -> res B) b,
  bind m f = Ok b -> exists a n, m = Ok (a, n) /\ f (a, n) = Ok b.
Proof. intros A B [[a n]| | |] f b H; try discriminate. eauto. Qed.

Lemma read_fin : forall f,
  (forall all ts d, read_definition_list f all ts = Ok d -> read_definition_list f (map fin all) (map fin ts) = Ok d) /\
  (forall all ts d n, read_single_definition f all ts = Ok (d, n) -> read_single_definition f (map fin all) (map fin ts) = Ok (d, map fin n)) /\
  (forall all ts d n, read_syntactic_term f all ts = Ok (d, n) -> read_syntactic_term f (map fin all) (map fin ts) = Ok (d, map fin n)) /\
  (forall all ts d n, read_syntactic_factor f all ts = Ok (d, n) -> read_syntactic_factor f (map fin all) (map fin ts) = Ok (d, map fin n)) /\
  (forall all ts d n, read_syntactic_primary f all ts = Ok (d, n) -> read_syntactic_primary f (map fin all) (map fin ts) = Ok (d, map fin n)).
Proof.
  induction f as [|f (IHdl & IHsd & IHtm & IHfa & IHpr)]; [repeat split; intros; discriminate|].
  split; [|split; [|split; [|split]]].
  - intros all ts d H. cbn [read_definition_list] in *. apply bind_ok2 in H as (sd & n & E & H).
    rewrite (IHsd _ _ _ _ E). cbn [bind]. rewrite skip_fin. destruct (skip_trivia n) as [|t r]; [exact H|].
    cbn [map]. assert (Et : is_terminator (fin t) = is_terminator t) by (destruct t; reflexivity). rewrite Et.
    destruct (is_terminator t) eqn:Ett; [exact H|]. apply bind_ok in H as (ds & E2 & H).
    replace (match fin t with TDefSep _ _ => map fin r | _ => fin t :: map fin r end)
      with (map fin (match t with TDefSep _ _ => r | _ => t :: r end)) by (destruct t; try reflexivity; discriminate).
    rewrite (IHdl _ _ _ E2). exact H.
  - intros all ts d n H. cbn [read_single_definition] in *. apply bind_ok2 in H as (tm & m & E & H).
    rewrite (IHtm _ _ _ _ E). cbn [bind]. rewrite skip_fin. destruct (skip_trivia m) as [|t r]; [injection H as <- <-; reflexivity|].
    cbn [map]. destruct t; cbn [fin is_terminator] in *; try discriminate; try (injection H as <- <-; reflexivity).
    apply bind_ok2 in H as (tms & n2 & E2 & H). injection H as <- <-. rewrite (IHsd _ _ _ _ E2). reflexivity.
  - intros all ts d n H. cbn [read_syntactic_term] in *. apply bind_ok2 in H as (fa & m & E & H).
    rewrite (IHfa _ _ _ _ E). cbn [bind]. rewrite skip_fin. destruct (skip_trivia m) as [|t r]; [injection H as <- <-; reflexivity|].
    cbn [map]. destruct t; cbn [fin] in *; try (injection H as <- <-; reflexivity).
    apply bind_ok2 in H as (ex & n2 & E2 & H). injection H as <- <-. rewrite (IHfa _ _ _ _ E2). reflexivity.
  - intros all ts d n H. cbn [read_syntactic_factor] in *. apply bind_ok in H as ((k & m) & E & H).
    apply bind_ok2 in H as (p & n2 & E2 & H). injection H as <- <-. apply IHpr in E2.
    rewrite skip_fin. destruct (skip_trivia ts) as [|t r].
    + injection E as <- <-. cbn [map bind] in *. rewrite E2. reflexivity.
    + cbn [map]. destruct t; cbn [fin] in *; try (injection E as <- <-; cbn [map bind fin] in *; rewrite E2; reflexivity).
      destruct (parse_u32 s); [|discriminate]. rewrite skip_fin. destruct (skip_trivia r) as [|t2 r2]; [discriminate|].
      destruct t2; try discriminate. injection E as <- <-. cbn [map fin bind]. rewrite skip_fin, E2. reflexivity.
  - intros all ts d n H. cbn [read_syntactic_primary] in *. rewrite skip_fin.
    assert (K : forall o c t0 r (mk : definition_list -> primary), brackets o c ->
       bind (match find_close o c 0 r with
             | Some (sub, nx) => let? d := read_definition_list f sub sub in Ok (d, nx)
             | None => Err {| e_loc := tok_loc t0; e_msg := MNotClosed (tok_name t0) (tok_debug t0) |}
             end) (fun '(d, nx) => Ok (mk d, nx)) = Ok (d, n) ->
       bind (match find_close o c 0 (map fin r) with
             | Some (sub, nx) => let? d := read_definition_list f sub sub in Ok (d, nx)
             | None => Err {| e_loc := tok_loc t0; e_msg := MNotClosed (tok_name t0) (tok_debug t0) |}
             end) (fun '(d, nx) => Ok (mk d, nx)) = Ok (d, map fin n)).
    { intros o c t0 r mk Hb E. rewrite find_close_fin by exact Hb.
      destruct (find_close o c 0 r) as [[sub nx]|]; [|discriminate]. apply bind_ok2 in E as (d' & nx' & E & E2).
      injection E2 as <- <-. apply bind_ok in E as (d2 & E & E2). injection E2 as <- <-.
      rewrite (IHdl _ _ _ E). reflexivity. }
    destruct (skip_trivia ts) as [|t r]; [injection H as <- <-; cbn [map]; rewrite rev_fin; reflexivity|].
    cbn [map]. destruct t; cbn [fin]; try (injection H as <- <-; reflexivity).
    + rewrite followed_fin. destruct (_ && _); [discriminate|]. apply K; [constructor|exact H].
    + rewrite followed_fin. destruct (_ && _); [discriminate|]. apply K; [constructor|exact H].
    + apply K; [constructor|exact H].
    + change (TMeta l s :: map fin r) with (map fin (TMeta l s :: r)). rewrite rmi_fin.
      destruct (read_meta_identifier (TMeta l s :: r)) as ((id & l') & nx). injection H as <- <-. reflexivity.
Qed.
Lemma build_fin : forall ts o, build_syntax_rule ts = Ok o -> build_syntax_rule (map fin ts) = Ok o.
Proof.
  intros ts o H. unfold build_syntax_rule in *.
  assert (Eo : one_final_terminator (map fin ts) = one_final_terminator ts).
  { unfold one_final_terminator. rewrite <- map_rev. destruct (rev ts) as [|t r]; [reflexivity|]. cbn [map].
    assert (forall t, is_terminator (fin t) = is_terminator t) as Ht by (intros []; reflexivity). rewrite Ht.
    f_equal. f_equal. induction r as [|x r IH]; [reflexivity|]. cbn. rewrite Ht, IH. reflexivity. }
  rewrite Eo. destruct (one_final_terminator ts); [|discriminate]. cbn [negb] in *. rewrite rmi_fin.
  destruct (read_meta_identifier ts) as ((id & loc) & next). rewrite skip_fin.
  destruct (skip_trivia next) as [|t r]; [discriminate|]. cbn [map].
  destruct loc as [l|].
  - assert (Ed : is_defining_symbol (fin t) = is_defining_symbol t) by (destruct t; reflexivity). rewrite Ed.
    destruct (is_defining_symbol t); [|discriminate]. cbn [negb] in *. destruct id; [discriminate|].
    apply bind_ok in H as (d & E & H). unfold rd_fuel in *. rewrite map_length.
    rewrite (proj1 (read_fin _) _ _ _ E). exact H.
  - assert (Et : is_terminator (fin t) = is_terminator t) by (destruct t; reflexivity). rewrite Et.
    destruct (is_terminator t); [exact H|discriminate].
Qed.
Lemma lexes_final : forall l s ts, lexes l s ts -> tc = c_semi \/ tc = c_dot ->
  exists ts0 l', ts = ts0 ++ [TEOF l'] /\ Forall valid_tok ts0 /\
    lexes l (s ++ [tc]) (ts0 ++ [TTerminator l' tc; TEOF (loc_push_str l' [tc])]).
Proof.
  intros l s ts H Hc. induction H as [l|l l' t rest ts Hv Hl Hf Hr Hlex (ts0 & l0 & -> & HF & IH)].
  - exists [], l. split; [reflexivity|]. split; [constructor|]. cbn [app].
    change [tc] with (tok_text (TTerminator l tc) ++ []) at 1. econstructor; [exact Hc|reflexivity|exact I| |constructor].
    apply push_str_reaches.
  - exists (t :: ts0), l0. split; [reflexivity|]. split; [constructor; assumption|].
    rewrite <- app_assoc. cbn [app]. econstructor; [exact Hv|exact Hl| |exact Hr|exact IH].
    destruct rest as [|c rest]; [|exact Hf]. cbn [app hd_error].
    destruct t; cbn [follows]; auto; unfold letter, digit, gap_char in *;
      destruct Hc as [->| ->]; repeat split; try discriminate; try lia.
Qed.

End Final.

Lemma final_terminator : forall name s rs tc, tc = c_semi \/ tc = c_dot ->
  parse_str name s = Ok rs -> parse_str name (s ++ [tc]) = Ok rs.
Proof.
  intros name s rs tc Hc H. apply parse_str_ok in H as (ts & c & Hl & Ha).
  destruct (lexes_final tc _ _ _ Hl Hc) as (ts0 & l' & -> & HF & Hl').
  apply parse_str_ok. exists (ts0 ++ [TTerminator l' tc; TEOF (loc_push_str l' [tc])]), [].
  split; [exact Hl'|]. rewrite append_loop_app in *.
  destruct (append_loop [] ts0) as [c0 [rs0| | |]] eqn:E0; try discriminate.
  cbn [append_loop is_terminator] in *.
  destruct (build_syntax_rule (c0 ++ [TEOF l'])) as [o| | |] eqn:Eb; try discriminate.
  apply (build_fin tc) in Eb. rewrite map_app in Eb. cbn [map fin] in Eb.
  assert (Ec : map (fin tc) c0 = c0).
  { assert (Hc0 : existsb is_terminator c0 = false) by (eapply append_loop_rest; [exact E0|reflexivity]).
    clear - Hc0. induction c0 as [|x c0 IH]; [reflexivity|]. cbn in *. apply orb_false_iff in Hc0 as (H1 & H2).
    rewrite IH by exact H2. destruct x; try reflexivity. discriminate. }
  rewrite Ec in Eb. rewrite Eb. injection Ha as _ <-. reflexivity.
Qed.
