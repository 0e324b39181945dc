(** The temporary marks on density-matrix nodes (Node.hpp:84-205, Edge.hpp:43-65). *)
From Coq Require Import ZArith List Bool Lia Arith.
From Verif Require Import Num Base CTable State Read.
Import ListNotations.
Local Open Scope Z_scope.

(** The three marks: conjugated path (bit 0), first-edge path (bit 1) and density matrix (bit 2)
    (Node.hpp:90-92, 99-101). *)
Record marks := MK { mk_conj : bool; mk_first : bool; mk_dm : bool }.
(** No mark: an aligned pointer, or getDensityMatrixTempFlags(flags) == 0 (Node.hpp:112-115). *)
Definition mk0 : marks := MK false false false.
(** Bitwise or of two sets of marks (Node.hpp:193). *)
Definition mk_or (a b : marks) : marks :=
  MK (mk_conj a || mk_conj b) (mk_first a || mk_first b) (mk_dm a || mk_dm b).
(** Whether there is no mark (Node.hpp:112, 115). *)
Definition mk_none (m : marks) : bool := negb (mk_conj m) && negb (mk_first m) && negb (mk_dm m).

(** A dNode* with marks in its three lowest bits (Node.hpp:109-112). *)
Record dptr := DP { dp_at : nptr; dp_mk : marks }.
(** dEdge (Edge.hpp:19-21) *)
Record dedge := DE { de_p : dptr; de_w : complex }.
(** dNode (Node.hpp:84-90): successors, variable, temporary marks (bits 1, 2, 4 of flags) and the
    other bits of flags, which are not touched here. *)
Record dnode := DN { dn_e0 : dedge; dn_e1 : dedge; dn_e2 : dedge; dn_e3 : dedge;
                     dn_v : Z; dn_mk : marks; dn_rest : Z }.
(** The nodes (UniqueTable.hpp:350-360). *)
Definition dheap := nat -> dnode.

(** setConjugateTempFlagTrue (Node.hpp:109) *)
Definition setConj (p : dptr) : dptr := DP (dp_at p) (MK true (mk_first (dp_mk p)) (mk_dm (dp_mk p))).
(** setNonReduceTempFlagTrue (Node.hpp:110) *)
Definition setFirst (p : dptr) : dptr := DP (dp_at p) (MK (mk_conj (dp_mk p)) true (mk_dm (dp_mk p))).
(** setDensityMatTempFlagTrue (Node.hpp:111) *)
Definition setDm (p : dptr) : dptr := DP (dp_at p) (MK (mk_conj (dp_mk p)) (mk_first (dp_mk p)) true).
(** alignDensityNode (Node.hpp:112) *)
Definition alignP (p : dptr) : dptr := DP (dp_at p) mk0.
(** The same on the pointer of an edge (Edge.hpp:43-46). *)
Definition onp (f : dptr -> dptr) (e : dedge) : dedge := DE (f (de_p e)) (de_w e).
(** [edge.w.i = flipPointerSign(edge.w.i)] (Node.hpp:141, 154, 177, 182) *)
Definition flipI (e : dedge) : dedge := DE (de_p e) (CX (cr (de_w e)) (ep_flip (ci (de_w e)))).

(** Changing the successors of a node (Node.hpp:141-157). *)
Definition withE (x : dnode) (a b c d : dedge) : dnode := DN a b c d (dn_v x) (dn_mk x) (dn_rest x).
(** Changing its temporary marks (Node.hpp:117, 193). *)
Definition withM (x : dnode) (m : marks) : dnode :=
  DN (dn_e0 x) (dn_e1 x) (dn_e2 x) (dn_e3 x) (dn_v x) m (dn_rest x).

(** The change of the successors in alignDensityNodeNode (Node.hpp:135-159); [m] are the marks of
    the pointer. *)
Definition prepE (m : marks) (x : dnode) : dnode :=
  if mk_first m && negb (mk_conj m) then x
  else if negb (mk_conj m) then
    withE x (onp setDm (dn_e0 x)) (onp setDm (onp setFirst (dn_e1 x)))
            (onp setDm (onp setConj (flipI (dn_e2 x)))) (onp setDm (dn_e3 x))
  else
    let f e := onp setDm (onp setConj (flipI e)) in
    withE x (f (dn_e0 x)) (f (dn_e2 x)) (f (dn_e1 x)) (f (dn_e3 x)).
(** applyDmChangesToNode with alignDensityNodeNode (Node.hpp:127-160, 188-195).  The terminal node
    has v = -1.  [inr BadAssert] is the assertion at line 192, [inr BadNull] the access through a
    null pointer there. *)
Definition applyDm (h : dheap) (p : dptr) : (dheap * dptr) + bad :=
  if mk_dm (dp_mk p) then
    match dp_at p with
    | PNull => inr BadNull
    | PTerm => inl (h, alignP p)
    | PNode n =>
        let x := h n in
        if dn_v x <=? -1 then
          if mk_none (dn_mk x) then inl (h, alignP p) else inr BadAssert
        else if mk_none (dn_mk x)
        then inl (upd h n (withM (prepE (dp_mk p) x) (mk_or (dn_mk x) (dp_mk p))), alignP p)
        else inr BadAssert
    end
  else inl (h, p).

(** getAlignedNodeRevertModificationsOnSubEdges (Node.hpp:162-186) *)
Definition undoE (x : dnode) : dnode :=
  let m := dn_mk x in
  let a := onp alignP (dn_e0 x) in
  let b := onp alignP (dn_e1 x) in
  let c := onp alignP (dn_e2 x) in
  let d := onp alignP (dn_e3 x) in
  if mk_first m && negb (mk_conj m) then withE x a b c d
  else if negb (mk_conj m) then withE x a b (flipI c) d
  else withE x (flipI a) (flipI c) (flipI b) (flipI d).
(** revertDmChangesToNode (Node.hpp:197-203).  Reading through a pointer that still carries marks
    is flagged. *)
Definition revertDm (h : dheap) (p : dptr) : (dheap * dptr) + bad :=
  if negb (mk_none (dp_mk p)) then inr BadNull else
  match dp_at p with
  | PNull => inr BadNull
  | PTerm => inl (h, p)
  | PNode n =>
      let x := h n in
      if mk_dm (dn_mk x) then inl (upd h n (withM (undoE x) mk0), p) else inl (h, p)
  end.

(** applyDmChangesToEdges (Edge.hpp:57-60) *)
Definition applyDm2 (h : dheap) (p q : dptr) : (dheap * dptr * dptr) + bad :=
  match applyDm h p with
  | inr b => inr b
  | inl (h, p') => match applyDm h q with inr b => inr b | inl (h, q') => inl (h, p', q') end
  end.
(** revertDmChangesToEdges (Edge.hpp:48-51) *)
Definition revertDm2 (h : dheap) (p q : dptr) : (dheap * dptr * dptr) + bad :=
  match revertDm h p with
  | inr b => inr b
  | inl (h, p') => match revertDm h q with inr b => inr b | inl (h, q') => inl (h, p', q') end
  end.

Section GetDM.
Context (N : num) (av : eaddr -> N).
(** [av] gives the values of the entries (ComplexTable.hpp:30). *)

(** Entry::val (ComplexTable.hpp:67-72) *)
Definition dval (p : eptr) : N := if ep_neg p then nneg (av (ep_at p)) else av (ep_at p).
(** The value of a weight (ComplexNumbers.hpp:228-233). *)
Definition dcval (w : complex) : N * N := (dval (cr w), dval (ci w)).
(** approximatelyZero, approximatelyOne on values (ComplexTable.hpp:89-101, Complex.hpp:41-47) *)
Definition dz (a : N * N) : bool := approx_zero (fst a) && approx_zero (snd a).
(** approximatelyOne (Complex.hpp:45-47) *)
Definition d1 (a : N * N) : bool := approx_one (fst a) && approx_zero (snd a).
(** mul (ComplexNumbers.hpp:50-69) on values. *)
Definition dmul (a b : N * N) : N * N :=
  if d1 a then b else if d1 b then a else if dz a || dz b then (n0, n0)
  else (nsub (nmul (fst a) (fst b)) (nmul (snd a) (snd b)), nadd (nmul (fst a) (snd b)) (nmul (snd a) (fst b))).

(** [e.p->e[i]] (Package.hpp:2763-2781) *)
Definition succ (x : dnode) (i : nat) : dedge :=
  match i with O => dn_e0 x | 1%nat => dn_e1 x | 2%nat => dn_e2 x | _ => dn_e3 x end.
(** Assignment to [e.p->e[i].p], which is passed by reference (Package.hpp:2764-2782). *)
Definition setSucc (x : dnode) (i : nat) (p : dptr) : dnode :=
  let e := DE p (de_w (succ x i)) in
  match i with
  | O => withE x e (dn_e1 x) (dn_e2 x) (dn_e3 x)
  | 1%nat => withE x (dn_e0 x) e (dn_e2 x) (dn_e3 x)
  | 2%nat => withE x (dn_e0 x) (dn_e1 x) e (dn_e3 x)
  | _ => withE x (dn_e0 x) (dn_e1 x) (dn_e2 x) e
  end.
(** The matrix under construction, indexed by row and column (Package.hpp:2742). *)
Definition cmat := Z -> Z -> N * N.
(** [mat.at(i).at(j) = x] (Package.hpp:2754) *)
Definition setM (m : cmat) (i j : Z) (x : N * N) : cmat :=
  fun i' j' => if (i' =? i) && (j' =? j) then x else m i' j'.

(** One of the four blocks of getDensityMatrix (Package.hpp:2762-2782): the descent along successor
    [k] of node [n]; [rec] is the recursive call. *)
Definition getStep (rec : dheap -> nptr -> complex -> N * N -> Z -> Z -> cmat -> (dheap * cmat) + bad)
  (n : nat) (c : N * N) (bit i j : Z) (k : nat) (r : (dheap * cmat) + bad) : (dheap * cmat) + bad :=
  match r with
  | inr b => inr b
  | inl (h, m) =>
      let e := succ (h n) k in
      if dz (dcval (de_w e)) then inl (h, m)
      else match applyDm h (de_p e) with
           | inr b => inr b
           | inl (h, q) =>
               match rec (upd h n (setSucc (h n) k q)) (dp_at q) (de_w e) c (if Nat.leb 2 k then Z.lor i bit else i)
                       (if Nat.odd k then Z.lor j bit else j) m with
               | inr b => inr b
               | inl (h, m) =>
                   match revertDm h q with
                   | inr b => inr b
                   | inl (h, q) => inl (upd h n (setSucc (h n) k q), m)
                   end
               end
           end
  end.
(** getDensityMatrix(e, amp, i, j, mat) (Package.hpp:2748-2785) on the prepared edge [e]; the
    temporaries are not modelled and the bounds of [mat] are not checked. *)
Fixpoint getDMF (fuel : nat) (h : dheap) (p : nptr) (w : complex) (amp : N * N) (i j : Z) (m : cmat)
  : (dheap * cmat) + bad :=
  match fuel with
  | O => inr BadFuel
  | S f =>
    let c := dmul (dcval w) amp in
    match p with
    | PNull => inr BadNull
    | PTerm => inl (h, setM m i j c)
    | PNode n =>
        let step := getStep (getDMF f) n c (2 ^ dn_v (h n)) i j in
        step 3%nat (step 2%nat (step 1%nat (step 0%nat (inl (h, m)))))
    end
  end.
(** Whether [2ULL << e.p->v] is the dimension (Package.hpp:2740): not for the terminal, whose v is -1, and
    not for more than 63 qubits. *)
Definition dimOk (h : dheap) (p : nptr) : bool := match p with PNode n => dn_v (h n) <? 63 | _ => false end.
(** getDensityMatrix(dEdge&) (Package.hpp:2738-2746): the nodes, the caller's edge and the matrix. *)
Definition getDensityMatrix (h : dheap) (e : dedge) (fuel : nat) : (dheap * dedge * cmat) + bad :=
  match applyDm h (de_p e) with
  | inr b => inr b
  | inl (h, q) =>
      if negb (dimOk h (dp_at q)) then inr BadShift else
      match getDMF fuel h (dp_at q) (de_w e) (n1, n0) 0 0 (fun _ _ => (n0, n0)) with
      | inr b => inr b
      | inl (h, m) => match revertDm h q with
                      | inr b => inr b
                      | inl (h, q) => inl (h, DE q (de_w e), m)
                      end
      end
  end.

(** intToString (Package.hpp:2628-2637): [size] characters, the last one for the lowest bit. *)
Fixpoint intToString (size : nat) (m : Z) : list bool :=
  match size with O => [] | S k => intToString k (Z.shiftr m 1) ++ [Z.odd m] end.
(** The loop over the qubits (Package.hpp:2604-2622): the probability left after [steps] rounds at node [p];
    the lowest bit of [m] selects the successor of the topmost node. *)
Fixpoint probF (steps : nat) (h : dheap) (thr : N) (p : nptr) (pr : N) (m : Z) : N + bad :=
  match steps with
  | O => inl pr
  | S k =>
    match p with
    | PNull => inr BadNull
    | PTerm => inl n0
    | PNode n =>
        if nleb pr thr then inl n0
        else if approx_zero (dval (ci (de_w (dn_e0 (h n))))) && approx_zero (dval (ci (de_w (dn_e3 (h n)))))
        then let e := if Z.odd m then dn_e3 (h n) else dn_e0 (h n) in
             probF k h thr (dp_at (de_p e)) (nmul pr (dval (cr (de_w e)))) (Z.shiftr m 1)
        else inr BadAssert
    end
  end.
(** The loop over the results (Package.hpp:2598-2626).  std::map sorts by the strings; all have the same length, so
    this is the order of the numbers. *)
Fixpoint probAll (q : nat) (h : dheap) (thr : N) (e : dedge) (ms : list Z) : list (list bool * N) + bad :=
  match ms with
  | [] => inl []
  | m :: r =>
      match probF q h thr (dp_at (de_p e)) (dval (cr (de_w e))) m with
      | inr b => inr b
      | inl pr => match probAll q h thr e r with
                  | inr b => inr b
                  | inl l => inl (if nltb n0 pr then (intToString q m, pr) :: l else l)
                  end
      end
  end.
(** getProbVectorFromDensityMatrix (Package.hpp:2590-2627) on the aligned edge. *)
Definition getProbVector (h : dheap) (e : dedge) (thr : N) : (list (list bool * N) + exn) + bad :=
  match dp_at (de_p e) with
  | PNull => inr BadNull
  | PTerm => inr BadShift
  | PNode n =>
      let q := dn_v (h n) + 1 in
      if 64 <=? q then inl (inr ERuntime)
      else match probAll (Z.to_nat q) h thr e (map Z.of_nat (seq 0 (2 ^ Z.to_nat q))) with
           | inr b => inr b
           | inl l => inl (inl l)
           end
  end.
End GetDM.
