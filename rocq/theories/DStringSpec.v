(** Specification of dynamic strings: the content as a list of bytes. *)
From Coq Require Import ZArith List.
Import ListNotations.
From Verif Require Import DStringModel.
Local Open Scope Z_scope.

(** Half of the limit on an allocation, in bytes *)
Definition HALF_LIMIT : Z := 50000000.
(** [spec_step c o c']: content before, operation, content after.  An append may be dropped, but
    only when the string with its terminator would reach half of the allocation limit. *)
Inductive spec_step : list Z -> dsop -> list Z -> Prop :=
| sp_append : forall c s, spec_step c (DAppend s) (c ++ s)
| sp_append_drop : forall c s, HALF_LIMIT <= Z.of_nat (length (c ++ s)) + 1 -> spec_step c (DAppend s) c
| sp_trunc : forall c n, 0 <= n -> spec_step c (DSetLength n) (firstn (Z.to_nat n) c)
| sp_set : forall c s, spec_step c (DSet s) s
| sp_set_drop : forall c s, HALF_LIMIT <= Z.of_nat (length s) + 1 -> spec_step c (DSet s) []
| sp_free : forall c, spec_step c DFree []
| sp_freedup : forall c, spec_step c DFreeDup []
| sp_printf : forall c s, spec_step c (DPrintf s) (c ++ s)
(** (what the code really guarantees for formatted output: all or nothing) *)
| sp_printf_drop : forall c s, spec_step c (DPrintf s) c.
Inductive spec_run : list Z -> list dsop -> list Z -> Prop :=
| sr_nil : forall c, spec_run c [] c
| sr_cons : forall c o c1 r c2, spec_step c o c1 -> spec_run c1 r c2 -> spec_run c (o :: r) c2.

Definition op_ok (o : dsop) : Prop := match o with DSetLength n => 0 <= n | _ => True end.
