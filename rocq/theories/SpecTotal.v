(** Left recursion. *)
From Coq Require Import String List NArith Arith Bool Relations.
From Verif Require Import Base Ast Graph SpecText SpecSyntax SpecParse.
Import ListNotations.
Open Scope nat_scope.

Section Rules.
Variable rules : list rule.
Variable cfg : config.
(** May match without reading a character. *)
Inductive skips : node -> Prop :=
| sk_terminal : forall l, skips (NPrim (PTerminal l []))
| sk_empty : forall l, skips (NPrim (PEmpty l))
| sk_special : forall l c s e, scanned (cfg l c) l s (SMatch s e) -> skips (NPrim (PSpecial l c))
| sk_forward : forall l c s id s', scanned (cfg l c) l s (SForward id s') -> skips (NPrim (PSpecial l c))
| sk_meta : forall l id r, names rules id r -> skips (NDefs (r_defs r)) -> skips (NPrim (PMeta l id))
| sk_optional : forall l d, skips (NPrim (POptional l d))
| sk_repeated : forall l d, skips (NPrim (PRepeated l d))
| sk_group : forall l d, skips (NDefs d) -> skips (NPrim (PGrouped l d))
| sk_none : forall p, skips (NFactor (Factor 0 p))
| sk_factor : forall n p, skips (NPrim p) -> skips (NFactor (Factor n p))
| sk_term : forall f e, skips (NFactor f) -> skips (NTerm (Term f e))
| sk_nil : skips (NSeq [])
| sk_seq_group : forall t ts d, bare_group t = Some d -> skips (NDefs d) -> skips (NSeq (t :: ts))
| sk_seq : forall t ts, skips (NTerm t) -> skips (NSeq ts) -> skips (NSeq (t :: ts))
| sk_defs : forall d ds, In d ds -> skips (NSeq d) -> skips (NDefs ds).
(** [starts n r]: the rule [r] may be tried before [n] has read a character.  (An exception
    is tried on the text its factor matched, which may be all there is.) *)
Inductive starts : node -> rule -> Prop :=
| st_meta : forall l id r, names rules id r -> starts (NPrim (PMeta l id)) r
| st_forward : forall l c s id s' r, scanned (cfg l c) l s (SForward id s') -> names rules id r -> starts (NPrim (PSpecial l c)) r
| st_dollar : forall l c s id s' r0 r, scanned (cfg l c) l s (SForward id s') -> In r0 rules -> dollar id r0 -> names rules (r_id r0) r ->
    starts (NPrim (PSpecial l c)) r
| st_optional : forall l d r, starts (NDefs d) r -> starts (NPrim (POptional l d)) r
| st_repeated : forall l d r, starts (NDefs d) r -> starts (NPrim (PRepeated l d)) r
| st_group : forall l d r, starts (NDefs d) r -> starts (NPrim (PGrouped l d)) r
| st_factor : forall n p r, starts (NPrim p) r -> starts (NFactor (Factor n p)) r
| st_term : forall f e r, starts (NFactor f) r -> starts (NTerm (Term f e)) r
| st_except : forall f e r, starts (NFactor e) r -> starts (NTerm (Term f (Some e))) r
| st_seq : forall t ts r, starts (NTerm t) r -> starts (NSeq (t :: ts)) r
| st_after : forall t ts r, bare_group t = None -> skips (NTerm t) -> starts (NSeq ts) r -> starts (NSeq (t :: ts)) r
| st_defs : forall d ds r, In d ds -> starts (NSeq d) r -> starts (NDefs ds) r.
Definition tries (r r' : rule) : Prop := In r rules /\ starts (NDefs (r_defs r)) r'.
(** A rule that may be tried again, directly or through others, at the place where it began. *)
Definition left_recursive (r : rule) : Prop := clos_trans rule tries r r.
End Rules.
