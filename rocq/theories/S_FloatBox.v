(** Specification of boxes with float32 corners. *)
From Flocq.IEEE754 Require Import Binary Bits.
From Verif Require Import Base.
Open Scope R_scope.

Notation val := (B2R 24 128).
Notation finite := (fun x : binary32 => is_finite 24 128 x = true).
(** the corners and the computed edge length are neither inf nor nan *)
Record edge (sub : binary32 -> binary32 -> binary32) (lb ub : binary32) : Prop := mkEdge {
  edge_lb : finite lb; edge_ub : finite ub; edge_order : val lb <= val ub; edge_length : finite (sub ub lb) }.
