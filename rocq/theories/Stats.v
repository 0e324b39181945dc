(** The hit ratio of the compute tables (ComputeTable.hpp:87, UnaryComputeTable.hpp:74,
    ToffoliTable.hpp:86). *)
From Coq Require Import ZArith List Bool.
From Verif Require Import Num Base CTable State.
Import ListNotations.
Local Open Scope Z_scope.

Section Stats.
(** [ofZ] is static_cast<fp> of a std::size_t (ComputeTable.hpp:87). *)
Context (N : num) (ofZ : Z -> N).
(** hitRatio (ComputeTable.hpp:87, UnaryComputeTable.hpp:74, ToffoliTable.hpp:86) *)
Definition hitRatio {K R} (t : tbl K R) : N := ndiv (ofZ (tb_hits t)) (ofZ (tb_look t)).
End Stats.
