(** Reading amplitudes and matrix entries (Package.hpp:2508-2878). *)
From Coq Require Import ZArith List Bool Lia Arith.
From Verif Require Import Num Base CTable State Pkg.
Import ListNotations.
Local Open Scope Z_scope.

(** [vec.at(i) = v] (Package.hpp:2651,2713); [None]: std::out_of_range. *)
Fixpoint setAt {A} (l : list A) (i : nat) (v : A) : option (list A) :=
  match l, i with
  | [], _ => None
  | _ :: r, O => Some (v :: r)
  | x :: r, S i' => match setAt r i' v with Some r' => Some (x :: r') | None => None end
  end.
(** std::size_t arithmetic is modulo 2^64 (e.g. Package.hpp:2829). *)
Definition w64 (z : Z) : Z := z mod 2 ^ 64.
(** dd::QubitCount is an 8-bit unsigned integer (Definitions.hpp:20-24). *)
Definition w8 (z : Z) : Z := z mod 2 ^ 8.
(** A shift of a 64-bit word by [n] (e.g. Package.hpp:2829-2830) is defined for 0 <= n < 64. *)
Definition shok (n : Z) : bool := (0 <=? n) && (n <? 64).

Section Read.
Context (N : num) (g : cfg N).
Local Notation M := (M N).

(** The loop of getValueByPath(Edge, string) (Package.hpp:2524-2532).  [els] are the
    characters of the string minus '0', from the front; character [v] selects the
    successor of the node on level [v]. *)
Fixpoint pathLoop (fuel : nat) (k : kind) (c : complex) (r : edge) (els : list nat) : M unit :=
  match fuel with
  | O => fail BadFuel
  | S f =>
    mulInto c c (ew r) ;;;
    match ep r with
    | PTerm => ret tt
    | PNull => fail BadNull
    | PNode n => fun s =>
        match nth_error els (Z.to_nat (nv (nod s k n))) with
        | None => Thr EOutOfRange s
        | Some d =>
            if Nat.ltb (arity k) d then Bad BadAssert else
            match nth_error (ne (nod s k n)) d with
            | None => Thr EOutOfRange s
            | Some e => pathLoop f k c e els s
            end
        end
    end
  end.
(** getValueByPath(Edge, string) (Package.hpp:2517-2535) *)
Definition getValueByPath (k : kind) (e : edge) (els : list nat) : M (N * N) := fun s =>
  if isT (ep e) then Ok (cval s (ew e)) s
  else (let* c := getTempV g (n1, n0) in
        pathLoop (fuelof N s) k c e els ;;;
        gets (fun s => cval s c)) s.

(** getValueByPath(vEdge, Complex, size_t) (Package.hpp:2542-2559) and
    getValueByPath(mEdge, Complex, size_t, size_t) (2566-2588).  [dig v] is the number of
    the successor selected on level [v] by the bits of the index (or the two indices). *)
Fixpoint byIdxF (fuel : nat) (k : kind) (dig : Z -> nat) (e : edge) (amp : complex) : M (N * N) :=
  match fuel with
  | O => fail BadFuel
  | S f =>
    let* c := mulCached g (ew e) amp in
    match ep e with
    | PTerm => retCache c ;;; gets (fun s => cval s c)
    | PNull => fail BadNull
    | PNode n => fun s =>
        let v := nv (nod s k n) in
        if negb (shok v) then Bad BadShift else
        let e' := nthe (ne (nod s k n)) (dig v) in
        (let* r := if wapx0 s (ew e') then ret (n0, n0) else byIdxF f k dig e' c in
         retCache c ;;; ret r) s
    end
  end.
(** [(i & (1ULL << v)) != 0] (Package.hpp:2550,2574-2575) *)
Definition bitV (i : Z) (v : Z) : nat := if Z.testbit i v then 1 else 0.
(** The choice among the four successors (Package.hpp:2578-2586). *)
Definition bitM (i j : Z) (v : Z) : nat := (2 * bitV i v + bitV j v)%nat.
(** getValueByPath(vEdge, size_t) (Package.hpp:2536-2541) *)
Definition getValueV (e : edge) (i : Z) : M (N * N) := fun s =>
  if isT (ep e) then Ok (cval s (ew e)) s else byIdxF (fuelof N s) KV (bitV i) e Cone s.
(** getValueByPath(mEdge, size_t, size_t) (Package.hpp:2560-2565) *)
Definition getValueM (e : edge) (i j : Z) : M (N * N) := fun s =>
  if isT (ep e) then Ok (cval s (ew e)) s else byIdxF (fuelof N s) KM (bitM i j) e Cone s.

(** The recursion of getVector (Package.hpp:2646-2667) and getMatrix (2708-2736).  [put]
    stores a value at an index, [nx i v d] is the index for successor [d] on level [v]. *)
Section Fill.
Context {I A : Type} (put : A -> I -> N * N -> option A) (nx : I -> Z -> nat -> I).
(** getVector (Package.hpp:2646-2667), getMatrix (2708-2736) *)
Fixpoint fillF (fuel : nat) (k : kind) (e : edge) (amp : complex) (i : I) (acc : A) : M A :=
  match fuel with
  | O => fail BadFuel
  | S f =>
    let* c := mulCached g (ew e) amp in
    match ep e with
    | PNull => fail BadNull
    | PTerm => fun s =>
        match put acc i (cval s c) with
        | None => Thr EOutOfRange s
        | Some acc' => (retCache c ;;; ret acc') s
        end
    | PNode n => fun s =>
        let v := nv (nod s k n) in
        if negb (shok v) then Bad BadShift else
        let es := ne (nod s k n) in
        (let* acc := foldM N (fun acc d =>
            let* s := get in
            if wapx0 s (ew (nthe es d)) then ret acc
            else fillF f k (nthe es d) c (nx i v d) acc) (seq 0 (arity k)) acc in
         retCache c ;;; ret acc) s
    end
  end.
End Fill.

(** [i | (1ULL << v)] for successor 1 (Package.hpp:2656) *)
Definition nxV (i v : Z) (d : nat) : Z := if Nat.eqb d 1 then Z.lor i (2 ^ v) else i.
(** [x] for the two lower, [y] for the two right successors (Package.hpp:2718-2719) *)
Definition nxM (ij : Z * Z) (v : Z) (d : nat) : Z * Z :=
  (nxV (fst ij) v (d / 2), nxV (snd ij) v (d mod 2)).
(** [vec.at(i) = ...] (Package.hpp:2651) *)
Definition putV (vec : list (N * N)) (i : Z) (x : N * N) : option (list (N * N)) := setAt vec (Z.to_nat i) x.
(** [mat.at(i).at(j) = ...] (Package.hpp:2713) *)
Definition putM (mat : list (list (N * N))) (ij : Z * Z) (x : N * N) : option (list (list (N * N))) :=
  match nth_error mat (Z.to_nat (fst ij)) with
  | None => None
  | Some row => match setAt row (Z.to_nat (snd ij)) x with
                | None => None
                | Some row' => setAt mat (Z.to_nat (fst ij)) row'
                end
  end.

(** [2ULL << e.p->v] (Package.hpp:2640,2702); the terminal has v = -1. *)
Definition dimOf (k : kind) (e : edge) : M Z := fun s =>
  match ep e with
  | PNull => Bad BadNull
  | p => if shok (lvl s k p) then Ok (w64 (2 * 2 ^ lvl s k p)) s else Bad BadShift
  end.
(** getVector (Package.hpp:2639-2645) *)
Definition getVector (e : edge) : M (list (N * N)) :=
  let* dim := dimOf KV e in
  fun s => fillF putV nxV (fuelof N s) KV e Cone 0 (repeat (n0, n0) (Z.to_nat dim)) s.
(** getMatrix (Package.hpp:2701-2707) *)
Definition getMatrix (e : edge) : M (list (list (N * N))) :=
  let* dim := dimOf KM e in
  fun s => fillF putM nxM (fuelof N s) KM e Cone (0, 0)
             (repeat (repeat (n0, n0) (Z.to_nat dim)) (Z.to_nat dim)) s.

(** [for (i = 0; i < (1ULL << level); i++) amplitudes[idx++] = f(amplitudes[idx])]
    (Package.hpp:2831-2833,2859-2862); [operator[]] does not check the index. *)
Fixpoint blockSet (cnt : nat) (f : N * N -> N * N) (idx : nat) (amps : list (N * N)) : option (list (N * N)) :=
  match cnt with
  | O => Some amps
  | S c => match nth_error amps idx with
           | None => None
           | Some x => match setAt amps idx (f x) with
                       | None => None
                       | Some a' => blockSet c f (S idx) a'
                       end
           end
  end.
(** The loop over a block of amplitudes (Package.hpp:2829-2834, 2858-2863). *)
Definition blockM (level idx : Z) (f : N * N -> N * N) (amps : list (N * N)) : M (list (N * N)) := fun s =>
  if negb (shok level) then Bad BadShift else
  match blockSet (Z.to_nat (2 ^ level)) f (Z.to_nat (w64 (idx * 2 ^ level))) amps with
  | None => Bad BadIndex
  | Some a => Ok a s
  end.

(** exportAmplitudesRec into a vector (Package.hpp:2826-2842) *)
Fixpoint expF (fuel : nat) (e : edge) (amps : list (N * N)) (amp : complex) (level idx : Z) : M (list (N * N)) :=
  match fuel with
  | O => fail BadFuel
  | S f =>
    match ep e with
    | PTerm =>
        let* t := getTemp g in
        mulInto t amp (ew e) ;;;
        let* v := gets (fun s => cval s t) in
        blockM level idx (fun _ => v) amps
    | PNull => fail BadNull
    | PNode n =>
        let* a := mulCached g amp (ew e) in
        let* s := get in
        let* amps := expF f (nthe (ne (nod s KV n)) 0) amps a (w8 (level - 1)) (w64 (2 * idx)) in
        let* amps := expF f (nthe (ne (nod s KV n)) 1) amps a (w8 (level - 1)) (Z.lor (w64 (2 * idx)) 1) in
        retCache a ;;; ret amps
    end
  end.
(** exportAmplitudes into a vector (Package.hpp:2843-2851) *)
Definition exportAmplitudes (e : edge) (amps : list (N * N)) (nq : Z) : M (list (N * N)) := fun s =>
  if isT (ep e) then Ok amps s
  else (let* w := getCached g (n1, n0) in
        let* a := expF (fuelof N s) e amps w nq 0 in
        retCache w ;;; ret a) s.

(** exportAmplitudesRec into a stream (Package.hpp:2787-2806): the amplitudes in the order
    they are written; formatting is not modelled. *)
Fixpoint expSF (fuel : nat) (e : edge) (amp : complex) (level : Z) : M (list (N * N)) :=
  match fuel with
  | O => fail BadFuel
  | S f =>
    match ep e with
    | PTerm =>
        let* t := getTemp g in
        mulInto t amp (ew e) ;;;
        if negb (shok level) then fail BadShift
        else gets (fun s => repeat (cval s t) (Z.to_nat (2 ^ level)))
    | PNull => fail BadNull
    | PNode n =>
        let* a := mulCached g amp (ew e) in
        let* s := get in
        let* l0 := expSF f (nthe (ne (nod s KV n)) 0) a (w8 (level - 1)) in
        let* l1 := expSF f (nthe (ne (nod s KV n)) 1) a (w8 (level - 1)) in
        retCache a ;;; ret (l0 ++ l1)
    end
  end.
(** exportAmplitudes into a stream (Package.hpp:2807-2815) *)
Definition exportStream (e : edge) (nq : Z) : M (list (N * N)) := fun s =>
  if isT (ep e) then Ok [] s
  else (let* w := getCached g (n1, n0) in
        let* a := expSF (fuelof N s) e w nq in
        retCache w ;;; ret a) s.

(** The product in addAmplitudesRec (Package.hpp:2854-2856) *)
Definition vmulA (e amp : N * N) : N * N :=
  (nsub (nmul (fst e) (fst amp)) (nmul (snd e) (snd amp)), nadd (nmul (fst e) (snd amp)) (nmul (snd e) (fst amp))).
(** addAmplitudesRec (Package.hpp:2853-2870) *)
Fixpoint addAmpF (fuel : nat) (e : edge) (amps : list (N * N)) (amp : N * N) (level idx : Z) : M (list (N * N)) :=
  match fuel with
  | O => fail BadFuel
  | S f => fun s =>
    let amp' := vmulA (cval s (ew e)) amp in
    match ep e with
    | PTerm => blockM level idx (fun x => (nadd (fst amp') (fst x), nadd (snd amp') (snd x))) amps s
    | PNull => Bad BadNull
    | PNode n =>
        (let* amps := addAmpF f (nthe (ne (nod s KV n)) 0) amps amp' (w8 (level - 1)) (w64 (2 * idx)) in
         addAmpF f (nthe (ne (nod s KV n)) 1) amps amp' (w8 (level - 1)) (Z.lor (w64 (2 * idx)) 1)) s
    end
  end.
(** addAmplitudes (Package.hpp:2871-2878) *)
Definition addAmplitudes (e : edge) (amps : list (N * N)) (nq : Z) : M (list (N * N)) := fun s =>
  if isT (ep e) then Ok amps s else addAmpF (fuelof N s) e amps (n1, n0) nq 0 s.
End Read.
