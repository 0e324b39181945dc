(** The table of Toffoli gates (ToffoliTable.hpp) and its place in garbage collection. *)
From Coq Require Import ZArith List Bool Lia Arith.
From Verif Require Import Num Base CTable State Pkg Control.
Import ListNotations.
Local Open Scope Z_scope.

(** Number of qubits, controls and target of an entry (ToffoliTable.hpp:24-27). *)
Record tkey := TK { tk_n : Z; tk_c : list control; tk_t : Z }.
(** The table (ToffoliTable.hpp:94-99): an entry with a null pointer is [None]. *)
Definition tof : Type := tbl tkey edge.
(** hash (ToffoliTable.hpp:63-73) in 64-bit arithmetic; NBUCKET = 2048 (ToffoliTable.hpp:19). *)
Definition tof_hash (k : tkey) : Z :=
  let w x := x mod 2 ^ 64 in
  fold_left (fun key c => w (key * w ((if cpos c then 29 else 71) * w (cqb c)))) (tk_c k) (tk_t k mod 256) mod 2048.
(** Comparison of an entry with the arguments of lookup (ToffoliTable.hpp:48-57) *)
Definition tk_eqb (a b : tkey) : bool := (tk_n a =? tk_n b) && (tk_t a =? tk_t b) && cs_eqb (tk_c a) (tk_c b).
(** insert (ToffoliTable.hpp:34-38) *)
Definition tof_insert (t : tof) (k : tkey) (e : edge) : tof := tb_insert (fun e => isnull (ep e)) t (tof_hash k) k e.
(** lookup (ToffoliTable.hpp:40-61); [None] is an edge with a null pointer. *)
Definition tof_lookup (t : tof) (k : tkey) : option edge * tof := tb_lookup (fun k' => tk_eqb k' k) t (tof_hash k).
(** clear (ToffoliTable.hpp:75-84) *)
Definition tof_clear (t : tof) : tof := tb_clear true t.

Section Gc.
Context (N : num) (g : cfg N) (nb : kind -> Z).

(** garbageCollect (Package.hpp:928-984) with the Toffoli table, cleared at line 962 only. *)
Definition gcToffoli (force : bool) (s : st N) (t : tof) : res N (bool * tof) :=
  match garbageCollect N g nb force s with
  | Ok b s' =>
      let t' :=
        if negb force && negb (ut_needsGC (s_ut s KV)) && negb (ut_needsGC (s_ut s KM))
           && negb (ut_needsGC (s_ut s KD)) && negb (ct_needsGC (s_ct s)) then t
        else match gcCounts N g nb force s with
             | Ok (_, _, mC, dC) _ => if (0 <? mC) || (0 <? dC) then tof_clear t else t
             | _ => t
             end in
      Ok (b, t') s'
  | Thr x s' => Thr x s'
  | Bad b => Bad b
  end.
End Gc.
