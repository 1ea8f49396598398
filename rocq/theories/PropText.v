(** Properties C01-C04: identifiers and locations. *)
From Coq Require Import String List NArith Bool.
From Verif Require Import Base Ident SpecText TextFacts.
Import ListNotations.

(** C01: the result is the maximal non-gap runs joined by single spaces; every gap
    in it is one space between words; it is idempotent. *)
Theorem C01_normalized_is_canonical : forall s,
  (exists ws, words_of s ws /\ normalized s = unwords ws) /\
  (forall ws, words_of s ws -> normalized s = unwords ws) /\
  canonical (normalized s) /\
  normalized (normalized s) = normalized s.
Proof.
  exact (fun s => conj
    (match words_total s with ex_intro _ ws H => ex_intro _ ws (conj H (normalized_words s ws H)) end)
    (conj (fun ws => normalized_words s ws)
    (conj (normalized_canonical s) (normalized_idem s)))).
Qed.
Print Assumptions C01_normalized_is_canonical.
Example C01_case : normalized (of_string "  ab  c ") = of_string "ab c" /\
  words_of (of_string "  ab  c ") [of_string "ab"; of_string "c"].
Proof.
  split; [reflexivity|].
  assert (G : gap_char 32%N) by (left; reflexivity).
  do 2 (apply words_gap; [exact G|]).
  apply (words_word (of_string "ab")); [discriminate| | |].
  - repeat constructor; apply is_gap_false; reflexivity.
  - right. exists 32%N, (of_string " c "). split; [reflexivity|exact G].
  - do 2 (apply words_gap; [exact G|]).
    apply (words_word (of_string "c")); [discriminate| | |].
    + repeat constructor; apply is_gap_false; reflexivity.
    + right. exists 32%N, []. split; [reflexivity|exact G].
    + apply words_gap; [exact G|apply words_nil].
Qed.

(** The decomposition into words used by C01 and C02 is unique. *)
Theorem C01_words_unique : forall s ws1 ws2, words_of s ws1 -> words_of s ws2 -> ws1 = ws2.
Proof. exact (fun s ws1 ws2 H1 H2 => words_unique s ws1 H1 ws2 H2). Qed.
Print Assumptions C01_words_unique.

(** C02: the key deletes exactly the gap characters; it is idempotent and invariant
    under normalisation; equal keys mean equal concatenations of words. *)
Theorem C02_key_ignores_gaps_only : forall s ws, words_of s ws ->
  keyed s = concat ws /\
  keyed (keyed s) = keyed s /\
  keyed (normalized s) = keyed s /\
  (forall t wt, words_of t wt -> (keyed s = keyed t <-> concat ws = concat wt)).
Proof.
  exact (fun s ws H => conj (keyed_words s ws H) (conj (keyed_idem s) (conj (keyed_normalized s)
    (fun t wt H2 => eq_ind_r (fun x => x = keyed t <-> concat ws = concat wt)
       (eq_ind_r (fun y => concat ws = y <-> concat ws = concat wt)
          (iff_refl _) (keyed_words t wt H2)) (keyed_words s ws H))))).
Qed.
Print Assumptions C02_key_ignores_gaps_only.
Example C02_case : keyed (of_string " ab  c") = keyed (of_string "a bc") /\
  keyed (of_string " ab  c") = of_string "abc".
Proof. split; reflexivity. Qed.

(** C03: reading [t] moves the location by the newlines and the characters after the
    last newline; reading in two pieces is reading at once; the specification
    determines the location. *)
Theorem C03_location_counts : forall l t,
  reaches l t (loc_push_str l t) /\
  (forall l', reaches l t l' -> l' = loc_push_str l t) /\
  (forall t1 t2, t = t1 ++ t2 -> loc_push_str l t = loc_push_str (loc_push_str l t1) t2).
Proof.
  exact (fun l t => conj (push_str_reaches l t)
    (conj (fun l' H => reaches_unique l t l' _ H (push_str_reaches l t))
          (fun t1 t2 E => eq_ind_r (fun x => loc_push_str l x = _) (push_str_app l t1 t2) E))).
Qed.
Print Assumptions C03_location_counts.
Example C03_case :
  loc_push_str (Loc [] 3 7) (of_string "ab" ++ [10%N] ++ of_string "c" ++ [10%N] ++ of_string "def")
  = Loc [] 5 4.
Proof. reflexivity. Qed.

(** C04: [cmp] is a total order whose [Eq] is equality and whose [Lt] is the [<] of
    the derived [PartialOrd]; reading on strictly increases. *)
Theorem C04_location_order : forall a b c,
  (loc_cmp a b = Eq <-> a = b) /\
  loc_cmp b a = CompOpp (loc_cmp a b) /\
  (loc_cmp a b = Lt -> loc_cmp b c = Lt -> loc_cmp a c = Lt) /\
  loc_partial_cmp a b = Some (loc_cmp a b) /\
  (loc_ltb a b = true <-> loc_cmp a b = Lt) /\
  (loc_eqb a b = true <-> a = b) /\
  (forall t, t <> [] -> loc_cmp a (loc_push_str a t) = Lt).
Proof.
  exact (fun a b c => conj (loc_cmp_eq a b) (conj (loc_cmp_antisym a b)
    (conj (loc_cmp_lt_trans a b c) (conj (loc_cmp_partial a b)
    (conj (loc_ltb_cmp a b) (conj (loc_eqb_eq a b) (fun t => loc_cmp_push t a))))))).
Qed.
Print Assumptions C04_location_order.
Example C04_case : loc_cmp (Loc [97%N] 2 1) (Loc [97%N] 1 9) = Gt /\
  loc_cmp (Loc [97%N] 9 9) (Loc [98%N] 1 1) = Lt.
Proof. split; reflexivity. Qed.
