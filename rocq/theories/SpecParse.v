(** Specification of parsing: what a special-sequence scanner does, and a big-step
    semantics of a list of rules over their syntax trees (no graph, no reader). *)
From Coq Require Import String List NArith Arith Bool.
From Verif Require Import Base Ast Graph SpecText SpecSyntax.
Import ListNotations.
Open Scope nat_scope.

(** A place: the text left and the location of its first character. *)
Record pst := Pst { p_rest : str; p_at : location }.
(** [goes s w s']: from [s], the text [w] lies before [s']. *)
Definition goes (s : pst) (w : str) (s' : pst) : Prop :=
  p_rest s = w ++ p_rest s' /\ reaches (p_at s) w (p_at s').

(** ** Scanners on a complete text *)
Inductive sres :=
| SMatch (s : pst) (evs : list event)
| SUnmatch
| SForward (id : str) (s : pst)
| SFail (e : error).
Definition reacts (s : pst) (r : reaction) : sres :=
  match r with RMatch evs => SMatch s evs | RUnmatch => SUnmatch | RForward id => SForward id s end.
(** [programmed own p s r]: from [s], with the places [own] marked, [p] answers [r]. *)
Inductive programmed : list pst -> sprog -> pst -> sres -> Prop :=
| pg_ret : forall own r s, programmed own (SpRet r) s (reacts s r)
| pg_fail : forall own e s, programmed own (SpFail e) s (SFail e)
| pg_char : forall own k c s s' r, goes s [c] s' -> programmed own (k (Some c)) s' r -> programmed own (SpRead k) s r
| pg_end : forall own k s r, p_rest s = [] -> programmed own (k None) s r -> programmed own (SpRead k) s r
| pg_loc : forall own k s r, programmed own (k (p_at s)) s r -> programmed own (SpLoc k) s r
| pg_eof : forall own k b s r, (b = true <-> p_rest s = []) -> programmed own (k b) s r -> programmed own (SpEof k) s r
| pg_prefix : forall own w k b s r, (b = true <-> exists t, p_rest s = w ++ t) -> programmed own (k b) s r ->
    programmed own (SpPrefix w k) s r
| pg_peek : forall own n k w s s' r, goes s w s' -> length w <= n -> (length w < n -> p_rest s' = []) ->
    programmed own (k w) s r -> programmed own (SpPeek n k) s r
| pg_skip : forall own n k w s s' r, goes s w s' -> length w <= n -> (length w < n -> p_rest s' = []) ->
    programmed own (k (length w)) s' r -> programmed own (SpSkip n k) s r
| pg_mark : forall own k s r, programmed (s :: own) k s r -> programmed own (SpMark k) s r
| pg_reset : forall newer s' older k n s r, length (p_rest s) + n = length (p_rest s') ->
    programmed older (k n) s' r -> programmed (newer ++ s' :: older) (SpReset (length newer) k) s r
| pg_unmark : forall newer s' older k s r,
    programmed older k s r -> programmed (newer ++ s' :: older) (SpUnmark (length newer) k) s r
| pg_no_reset : forall own i k s r, length own <= i -> programmed own (k 0) s r -> programmed own (SpReset i k) s r
| pg_no_unmark : forall own i k s r, length own <= i -> programmed own k s r -> programmed own (SpUnmark i k) s r.
(** The longest run of characters satisfying [pred], of at most [max] characters. *)
Definition longest_run (pred : char -> bool) (max : option N) (s : pst) (w : str) (s' : pst) : Prop :=
  goes s w s' /\ Forall (fun c => pred c = true) w /\
  (forall m, max = Some m -> (N.of_nat (length w) <= m)%N) /\
  (p_rest s' = [] \/ max = Some (N.of_nat (length w)) \/ exists c r, p_rest s' = c :: r /\ pred c = false).
Definition too_short (min : option N) (w : str) : Prop :=
  exists m, min = Some m /\ (N.of_nat (length w) < m)%N.
(** The regex engine answers for the next 257 characters. *)
Definition window (s : pst) : str := firstn 257 (p_rest s).
Inductive scanned : scanner -> location -> pst -> sres -> Prop :=
| sn_default : forall c def s, scanned (ScDefault c) def s (SMatch s [])
| sn_chars : forall pred min max def s w s', longest_run pred max s w s' -> ~ too_short min w ->
    scanned (ScChars pred min max) def s (SMatch s' [EvToken def (p_at s) w])
| sn_chars_no : forall pred min max def s w s', longest_run pred max s w s' -> too_short min w ->
    scanned (ScChars pred min max) def s SUnmatch
| sn_regex : forall re find def s len s', find (window s) = Some (0, len) ->
    goes s (firstn len (window s)) s' -> length (firstn len (window s)) <= 256 ->
    scanned (ScRegex re find) def s (SMatch s' [EvToken def (p_at s) (firstn len (window s))])
| sn_regex_long : forall re find def s len, find (window s) = Some (0, len) ->
    256 < length (firstn len (window s)) ->
    scanned (ScRegex re find) def s (SFail (Error_ (p_at s) MRegexTooLong))
| sn_regex_no : forall re find def s, (forall len, find (window s) <> Some (0, len)) ->
    scanned (ScRegex re find) def s SUnmatch
| sn_user : forall sym prog def s r, programmed [] (prog def) s r -> scanned (ScUser sym prog) def s r.

(** ** Rules *)
(** No definition-list and no single-definition without an element, at any depth. *)
Inductive filled : primary -> Prop :=
| fl_opt : forall l d, filled_defs d -> filled (POptional l d)
| fl_rep : forall l d, filled_defs d -> filled (PRepeated l d)
| fl_grp : forall l d, filled_defs d -> filled (PGrouped l d)
| fl_meta : forall l id, filled (PMeta l id)
| fl_term : forall l id, filled (PTerminal l id)
| fl_spec : forall l id, filled (PSpecial l id)
| fl_empty : forall l, filled (PEmpty l)
with filled_defs : definition_list -> Prop :=
| fl_defs1 : forall s, filled_seq s -> filled_defs [s]
| fl_defs2 : forall s d, filled_seq s -> filled_defs d -> filled_defs (s :: d)
with filled_seq : list term -> Prop :=
| fl_seq1 : forall t, filled_t t -> filled_seq [t]
| fl_seq2 : forall t s, filled_t t -> filled_seq s -> filled_seq (t :: s)
with filled_t : term -> Prop :=
| fl_t : forall f, filled (f_prim f) -> filled_t (Term f None)
| fl_te : forall f e, filled (f_prim f) -> filled (f_prim e) -> filled_t (Term f (Some e)).

Section Rules.
Variable rules : list rule.
Variable cfg : config.

Definition names (id : str) (r : rule) : Prop := In r rules /\ same_name id (r_id r).

(** [id] is the name of [r] with a dollar sign in front. *)
Definition dollar (id : str) (r : rule) : Prop := same_name id (36%N :: r_id r).

(** No rule has a name starting with a dollar sign (true of every rule that was read from
    a text). *)
Definition no_dollar : Prop := forall r w, In r rules -> ~ same_name (r_id r) (36%N :: w).

(** Why a parse stops: an error, or a panic. *)
Inductive halt := Failed (e : error) | Crashed.
(** [Match s evs]: matched up to [s], with these events.  [No e s evs]: not this way;
    [e] says what was wanted where, [s] is where the reader is left, and [evs] are events
    already handed out.  [Halt]: the whole parse stops. *)
Inductive outcome :=
| Match (s : pst) (evs : list event)
| No (e : error) (s : pst) (evs : list event)
| Halt (h : halt).

Inductive node :=
| NDefs (d : definition_list)
| NAlts (d : definition_list)
| NSeq (ts : list term)
| NTerm (t : term)
| NFactor (f : factor)
| NPrim (p : primary)
| NTimes (min max i : N) (body : node)
| NRef (def : location) (id : str)
| NFwd (id : str).

(** A term that is just a group: what follows it in its definition is never parsed
    (src/parser/graph.rs:268 drops [next]). *)
Definition bare_group (t : term) : option definition_list :=
  match t with
  | Term (Factor n (PGrouped _ d)) None => if N.eqb n 1 then Some d else None
  | _ => None
  end.
(** The one that got further; [a] when they got equally far. *)
Definition further (a b : error) : error := if loc_ltb (e_loc a) (e_loc b) then b else a.
Definition before (evs : list event) (o : outcome) : outcome :=
  match o with
  | Match s e => Match s (evs ++ e)
  | No x s e => No x s (evs ++ e)
  | Halt h => Halt h
  end.

(** ** Error messages *)
(** The text at a place, as quoted by an error: the first eight characters. *)
Definition quoted (rest : str) : actual :=
  match rest with
  | [] => AEof
  | _ => if Nat.leb (length rest) 8 then AText rest false else AText (firstn 8 rest) true
  end.
Definition wanted (s : pst) (name : str) : error :=
  Error_ (p_at s) (MExpected name (quoted (p_rest s))).
(** A terminal string between double quotes, with double quotes and backslashes escaped. *)
Definition in_quotes (w : str) : str :=
  of_string """" ++ concat (map (fun c => if N.eqb c 34 then [92%N; 34%N]
                                          else if N.eqb c 92 then [92%N; 92%N] else [c]) w) ++ of_string """".
(** "x", "x or y", "x, y, or z". *)
Definition listing (ws : list str) : str :=
  match rev ws with
  | [] => []
  | [x] => x
  | [y; x] => x ++ of_string " or " ++ y
  | z :: r => concat (map (fun w => w ++ of_string ", ") (rev r)) ++ of_string "or " ++ z
  end.
(** The name of a construct in an error: a sequence is named after its first term, a
    choice after all of its alternatives, a group after what is in it. *)
Fixpoint prim_name (p : primary) : str :=
  let factor_name (f : factor_ primary) :=
    if N.eqb (f_rep f) 1 then prim_name (f_prim f) else show_factor f in
  let term_name (t : term_ primary) :=
    match t_exc t with None => factor_name (t_factor t) | Some _ => show_term t end in
  let seq_name (ts : list (term_ primary)) :=
    match ts with [] => [] | t :: _ => term_name t end in
  match p with
  | PTerminal _ w => in_quotes w
  | PMeta _ id => id
  | PSpecial l c => scanner_symbol (cfg l c)
  | PEmpty _ => of_string "EMPTY"
  | POptional _ _ | PRepeated _ _ => show_primary p
  | PGrouped _ d => listing (map seq_name d)
  end.
Definition factor_name (f : factor) : str :=
  if N.eqb (f_rep f) 1 then prim_name (f_prim f) else show_factor f.
Definition term_name (t : term) : str :=
  match t_exc t with None => factor_name (t_factor t) | Some _ => show_term t end.
Definition seq_name (ts : list term) : str :=
  match ts with [] => [] | t :: _ => term_name t end.
Definition defs_name (d : definition_list) : str := listing (map seq_name d).

(** The count that stands for "any number". *)
Definition max_count : N := 4294967295.

Inductive ev : node -> pst -> outcome -> Prop :=
(** Terminals. *)
| ev_terminal : forall l w s s', goes s w s' ->
    ev (NPrim (PTerminal l w)) s (Match s' [EvToken l (p_at s) w])
| ev_terminal_no : forall l w s, (forall s', ~ goes s w s') ->
    ev (NPrim (PTerminal l w)) s (No (wanted s (in_quotes w)) s [])
| ev_empty : forall l s, ev (NPrim (PEmpty l)) s (Match s [])
(** Special sequences. *)
| ev_special : forall l c s s' evs, scanned (cfg l c) l s (SMatch s' evs) ->
    ev (NPrim (PSpecial l c)) s (Match s' evs)
| ev_special_no : forall l c s, scanned (cfg l c) l s SUnmatch ->
    ev (NPrim (PSpecial l c)) s (No (wanted s (scanner_symbol (cfg l c))) s [])
| ev_special_fail : forall l c s e, scanned (cfg l c) l s (SFail e) ->
    ev (NPrim (PSpecial l c)) s (Halt (Failed e))
| ev_forward : forall l c s id s1 s2 evs, scanned (cfg l c) l s (SForward id s1) ->
    ev (NFwd id) s1 (Match s2 evs) ->
    ev (NPrim (PSpecial l c)) s (Match s2 evs)
(** ... the failure of the target is ignored (src/parser/machine.rs:236-238). *)
| ev_forward_no : forall l c s id s1 e s2 evs, scanned (cfg l c) l s (SForward id s1) ->
    ev (NFwd id) s1 (No e s2 evs) ->
    ev (NPrim (PSpecial l c)) s (Match s2 evs)
| ev_forward_halt : forall l c s id s1 h, scanned (cfg l c) l s (SForward id s1) ->
    ev (NFwd id) s1 (Halt h) ->
    ev (NPrim (PSpecial l c)) s (Halt h)
| ev_forward_unknown : forall l c s id s1, scanned (cfg l c) l s (SForward id s1) ->
    ~ defined rules id -> (forall r, In r rules -> ~ dollar id r) ->
    ev (NPrim (PSpecial l c)) s
       (Halt (Failed (Error_ (p_at s) (MNoSuchForward id (scanner_symbol (cfg l c)) l))))
(** References. *)
| ev_meta : forall l id s o, ev (NRef l id) s o -> ev (NPrim (PMeta l id)) s o
| ev_ref : forall l id r s s' evs, names id r -> ev (NDefs (r_defs r)) s (Match s' evs) ->
    ev (NRef l id) s (Match s' ((EvBegin l (p_at s) (r_id r) :: evs) ++ [EvEnd l (p_at s') (r_id r)]))
| ev_ref_no : forall l id r s e s' evs, names id r -> ev (NDefs (r_defs r)) s (No e s' evs) ->
    ev (NRef l id) s (No e s' [])
| ev_ref_halt : forall l id r s h, names id r -> ev (NDefs (r_defs r)) s (Halt h) ->
    ev (NRef l id) s (Halt h)
| ev_ref_undefined : forall l id s, ~ defined rules id -> ev (NRef l id) s (Halt Crashed)
(** Brackets. *)
| ev_optional : forall l d s o, ev (NTimes 0 1 0 (NDefs d)) s o -> ev (NPrim (POptional l d)) s o
| ev_repeated : forall l d s o, ev (NTimes 0 max_count 0 (NDefs d)) s o -> ev (NPrim (PRepeated l d)) s o
| ev_grouped : forall l d s o, ev (NDefs d) s o -> ev (NPrim (PGrouped l d)) s o
(** Between [min] and [max] rounds, [i] of them done. *)
| ev_times_end : forall min max i b s, (max <= i)%N -> ev (NTimes min max i b) s (Match s [])
| ev_times_short : forall min max i b s x s' evs, (i < max)%N -> (i < min)%N ->
    ev b s (No x s' evs) -> ev (NTimes min max i b) s (No x s' [])
| ev_times_stop : forall min max i b s x s' evs, (i < max)%N -> (min <= i)%N ->
    ev b s (No x s' evs) -> ev (NTimes min max i b) s (Match s evs)
| ev_times_livelock : forall min max i b s s' evs, (i < max)%N -> max = max_count ->
    ev b s (Match s' evs) -> p_at s' = p_at s ->
    ev (NTimes min max i b) s (Halt (Failed (Error_ (p_at s) MLivelock)))
| ev_times_halt : forall min max i b s h, (i < max)%N -> ev b s (Halt h) ->
    ev (NTimes min max i b) s (Halt h)
| ev_times_more : forall min max i b s s' evs s2 evs2, (i < max)%N -> (max = max_count -> p_at s' <> p_at s) ->
    ev b s (Match s' evs) -> ev (NTimes min max (i + 1) b) s' (Match s2 evs2) ->
    ev (NTimes min max i b) s (Match s2 (evs ++ evs2))
| ev_times_no : forall min max i b s s' evs x s2, (i < max)%N -> (max = max_count -> p_at s' <> p_at s) ->
    ev b s (Match s' evs) -> ev (NTimes min max (i + 1) b) s' (No x s2 []) ->
    ev (NTimes min max i b) s (No x s2 [])
| ev_times_more_halt : forall min max i b s s' evs h, (i < max)%N -> (max = max_count -> p_at s' <> p_at s) ->
    ev b s (Match s' evs) -> ev (NTimes min max (i + 1) b) s' (Halt h) ->
    ev (NTimes min max i b) s (Halt h)
(** Factors and terms. *)
| ev_factor_one : forall p s o, ev (NPrim p) s o -> ev (NFactor (Factor 1 p)) s o
| ev_factor_many : forall n p s o, n <> 1%N -> ev (NTimes n n 0 (NPrim p)) s o -> ev (NFactor (Factor n p)) s o
| ev_term_plain : forall f s o, ev (NFactor f) s o -> ev (NTerm (Term f None)) s o
| ev_term_no : forall f e s x s' evs, ev (NFactor f) s (No x s' evs) ->
    ev (NTerm (Term f (Some e))) s (No x s [])
| ev_term_halt : forall f e s h, ev (NFactor f) s (Halt h) -> ev (NTerm (Term f (Some e))) s (Halt h)
| ev_term_excepted : forall f e s w s' evs s2 evs2, ev (NFactor f) s (Match s' evs) -> goes s w s' ->
    ev (NFactor e) (Pst w (p_at s)) (Match s2 evs2) -> p_rest s2 = [] ->
    ev (NTerm (Term f (Some e))) s (No (wanted s (show_term (Term f (Some e)))) s [])
| ev_term_kept : forall f e s w s' evs o, ev (NFactor f) s (Match s' evs) -> goes s w s' ->
    ev (NFactor e) (Pst w (p_at s)) o ->
    (exists s2 evs2, o = Match s2 evs2 /\ p_rest s2 <> []) \/ (exists x s2 evs2, o = No x s2 evs2) ->
    ev (NTerm (Term f (Some e))) s (Match s' evs)
| ev_term_exc_halt : forall f e s w s' evs h, ev (NFactor f) s (Match s' evs) -> goes s w s' ->
    ev (NFactor e) (Pst w (p_at s)) (Halt h) -> ev (NTerm (Term f (Some e))) s (Halt h)
(** Sequences. *)
| ev_seq_nil : forall s, ev (NSeq []) s (Match s [])
| ev_seq_group : forall t ts d s o, bare_group t = Some d -> ev (NDefs d) s o -> ev (NSeq (t :: ts)) s o
| ev_seq : forall t ts s s' evs o, bare_group t = None -> ev (NTerm t) s (Match s' evs) -> ev (NSeq ts) s' o ->
    ev (NSeq (t :: ts)) s (before evs o)
| ev_seq_no : forall t ts s x s' evs, bare_group t = None -> ev (NTerm t) s (No x s' evs) ->
    ev (NSeq (t :: ts)) s (No x s' evs)
| ev_seq_halt : forall t ts s h, bare_group t = None -> ev (NTerm t) s (Halt h) -> ev (NSeq (t :: ts)) s (Halt h)
(** Definition lists. *)
| ev_defs_one : forall ts s o, ev (NSeq ts) s o -> ev (NDefs [ts]) s o
| ev_defs_none : forall s, ev (NDefs []) s (Halt Crashed)
| ev_defs : forall d1 d2 ds s s' evs, ev (NAlts (d1 :: d2 :: ds)) s (Match s' evs) ->
    ev (NDefs (d1 :: d2 :: ds)) s (Match s' evs)
| ev_defs_halt : forall d1 d2 ds s h, ev (NAlts (d1 :: d2 :: ds)) s (Halt h) ->
    ev (NDefs (d1 :: d2 :: ds)) s (Halt h)
(** Failures that did not get anywhere are summed up, others are passed on. *)
| ev_defs_here : forall d1 d2 ds s e s' evs, ev (NAlts (d1 :: d2 :: ds)) s (No e s' evs) -> e_loc e = p_at s ->
    ev (NDefs (d1 :: d2 :: ds)) s (No (wanted s (defs_name (d1 :: d2 :: ds))) s' evs)
| ev_defs_ahead : forall d1 d2 ds s e s' evs, ev (NAlts (d1 :: d2 :: ds)) s (No e s' evs) -> e_loc e <> p_at s ->
    ev (NDefs (d1 :: d2 :: ds)) s (No e s' evs)
| ev_alts_first : forall d ds s s' evs, ev (NSeq d) s (Match s' evs) -> ev (NAlts (d :: ds)) s (Match s' evs)
| ev_alts_halt : forall d ds s h, ev (NSeq d) s (Halt h) -> ev (NAlts (d :: ds)) s (Halt h)
| ev_alts_last : forall d s x s' evs, ev (NSeq d) s (No x s' evs) -> ev (NAlts [d]) s (No x s [])
| ev_alts_next : forall d ds s x s' evs s2 evs2, ev (NSeq d) s (No x s' evs) ->
    ev (NAlts ds) s (Match s2 evs2) -> ev (NAlts (d :: ds)) s (Match s2 evs2)
| ev_alts_no : forall d ds s x s' evs x2, ev (NSeq d) s (No x s' evs) ->
    ev (NAlts ds) s (No x2 s []) -> ev (NAlts (d :: ds)) s (No (further x2 x) s [])
| ev_alts_next_halt : forall d ds s x s' evs h, ev (NSeq d) s (No x s' evs) ->
    ev (NAlts ds) s (Halt h) -> ev (NAlts (d :: ds)) s (Halt h)
(** Forwarding: to a rule, or (with a leading [$]) to a reference to it. *)
| ev_fwd : forall id r s o, names id r -> ev (NDefs (r_defs r)) s o -> ev (NFwd id) s o
| ev_fwd_alias : forall id r s o, In r rules -> dollar id r -> ev (NRef (r_loc r) (r_id r)) s o ->
    ev (NFwd id) s o.

(** [k] consecutive matches of [b]; [strides]: each of which moves. *)
Inductive rounds (b : node) : nat -> pst -> pst -> list event -> Prop :=
| rounds_none : forall s, rounds b 0 s s []
| rounds_more : forall k s s1 s2 e1 e2, ev b s (Match s1 e1) -> rounds b k s1 s2 e2 -> rounds b (S k) s s2 (e1 ++ e2).
Inductive strides (b : node) : nat -> pst -> pst -> list event -> Prop :=
| strides_none : forall s, strides b 0 s s []
| strides_more : forall k s s1 s2 e1 e2, ev b s (Match s1 e1) -> p_at s1 <> p_at s -> strides b k s1 s2 e2 ->
    strides b (S k) s s2 (e1 ++ e2).
Definition matches (n : node) (s s' : pst) (e : list event) : Prop := ev n s (Match s' e).
Definition fails (n : node) (s : pst) : Prop := exists l s' e, ev n s (No l s' e).
Definition fails_with (n : node) (s : pst) (e : error) : Prop := exists s' evs, ev n s (No e s' evs).
Definition fails_at (n : node) (s : pst) (l : location) : Prop := exists e, fails_with n s e /\ e_loc e = l.
Definition halts (n : node) (s : pst) (e : error) : Prop := ev n s (Halt (Failed e)).

(** What the rule named [id] does. *)
Definition means (id : str) (s : pst) (o : outcome) : Prop :=
  exists r, names id r /\ ev (NRef (r_loc r) (r_id r)) s o.
End Rules.

(** [l] is the furthest of the locations [ls]. *)
Definition greatest (l : location) (ls : list location) : Prop := In l ls /\ Forall (fun x => loc_cmp x l <> Gt) ls.
(** [e] is the last of the failures [es] that got furthest. *)
Definition last_furthest (e : error) (es : list error) : Prop :=
  exists before after, es = before ++ e :: after /\
    Forall (fun x => loc_cmp (e_loc x) (e_loc e) <> Gt) before /\
    Forall (fun x => loc_cmp (e_loc x) (e_loc e) = Lt) after.
