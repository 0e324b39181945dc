(** Writing diagrams to files, reading them back (Export.hpp:628-777, Package.hpp:2968-3108), and copying
    them between packages (Package.hpp:2881-2961). *)
From Coq Require Import ZArith List Bool Lia Arith.
From Verif Require Import Num Base CTable State Pkg.
Import ListNotations.
Local Open Scope Z_scope.

(** One line of a file (Export.hpp:694-719): the index of the node, its level, and for each successor
    the index of its node (-1 for the terminal) and its weight; [None] is the empty pair of brackets of
    the text format (Export.hpp:709-717).  [W] is the type of the weights. *)
Record frec (W : Type) := FR { fr_ix : Z; fr_v : Z; fr_es : list (option (Z * W)) }.
Arguments FR {W}. Arguments fr_ix {W}. Arguments fr_v {W}. Arguments fr_es {W}.

(** A file (Export.hpp:629-635): the weight of the root and the lines.  The version number, the same in
    every file (Export.hpp:630, 633), is left out. *)
Record file (W : Type) := FL { fl_w : W; fl_rs : list (frec W) }.
Arguments FL {W}. Arguments fl_w {W}. Arguments fl_rs {W}.

(** std::unordered_map::find for integer keys (Package.hpp:2973, 3095); the latest assignment counts. *)
Fixpoint ixFind {A} (l : list (Z * A)) (i : Z) : option A :=
  match l with [] => None | (j, a) :: r => if j =? i then Some a else ixFind r i end.
(** Position in a list: the index given by the counters nextIndex (Export.hpp:691-692) and idx
    (Export.hpp:734-737) to nodes numbered in the order of the list. *)
Fixpoint posOf (n : nat) (l : list nat) : option nat :=
  match l with
  | [] => None
  | m :: r => if Nat.eqb m n then Some 0%nat else match posOf n r with Some i => Some (S i) | None => None end
  end.
(** The list without repetitions of earlier members (a node that has an index keeps it,
    Export.hpp:734-737). *)
Definition firsts (l : list nat) : list nat := rev (nodup Nat.eq_dec (rev l)).

Section Serial.
Context (N : num) (g : cfg N) (nb : kind -> Z).
Local Notation M := (M N).
Local Notation makeDDNode := (makeDDNode N g nb).

(** ** The order of the nodes *)

(** Successors pushed before their node (Export.hpp:646-660, Package.hpp:2894-2908): not the terminal,
    weight not approximately zero, node not [done] yet. *)
Definition wanted (a : st N) (done : list nat) (c : edge) : bool :=
  match ep c with
  | PTerm => false
  | PNode m => negb (wapx0 a (ew c)) && negb (memb m done)
  | PNull => negb (wapx0 a (ew c))
  end.

(** The inner loop (Export.hpp:645-663, Package.hpp:2893-2911): down along the first successors.  The
    stack is a list with the top first. *)
Fixpoint down (fuel : nat) (k : kind) (done : list nat) (e : edge) (stk : list edge) : M (list edge) :=
  match fuel with
  | O => fail BadFuel
  | S f =>
    match ep e with
    | PTerm => ret stk
    | PNull => fail BadNull
    | PNode n =>
        let* a := get in
        let cs := ne (nod a k n) in
        down f k done (nthe cs 0) (e :: filter (wanted a done) (tl cs) ++ stk)
    end
  end.

(** hasChild (Export.hpp:667-679, Package.hpp:2915-2925).  The copying function looks at the top of the
    stack without the check made by the writing function ([guard]); the top of an empty stack is flagged. *)
Fixpoint hasChild (a : st N) (guard : bool) (done : list nat) (cs stk : list edge) : M bool :=
  match cs with
  | [] => ret false
  | c :: r =>
      if wapx0 a (ew c) || match ep c with PNode m => memb m done | _ => false end then hasChild a guard done r stk
      else match stk with
           | [] => if guard then hasChild a guard done r stk else fail BadIndex
           | t :: _ => if nptr_eqb (ep c) (ep t) then ret true else hasChild a guard done r stk
           end
  end.

(** The traversal with one stack (Export.hpp:644-722, Package.hpp:2892-2950): the nodes in the order in
    which they are numbered and written, or copied; [cur] is the variable node (currentEdge), [None] if
    null.  [fuel] bounds the number of rounds. *)
Fixpoint orderF (fuel : nat) (k : kind) (guard : bool) (cur : option edge) (stk : list edge) (done : list nat) : M (list nat) :=
  match fuel with
  | O => fail BadFuel
  | S f =>
    let* stk1 := match cur with Some e => down fuel k done e stk | None => ret stk end in
    match stk1 with
    | [] => fail BadIndex
    | e :: rest =>
      match ep e with
      | PNode n =>
          let* a := get in
          let* h := hasChild a guard done (tl (ne (nod a k n))) rest in
          if h then
            match rest with
            | t :: rest' => orderF f k guard (Some t) (e :: rest') done
            | [] => fail BadIndex
            end
          else
            let done' := if memb n done then done else done ++ [n] in
            match rest with [] => ret done' | _ => orderF f k guard None rest done' end
      | _ => fail BadNull
      end
    end
  end.

(** serializeMatrix (Export.hpp:726-764), writing left out: [fst] of the state is the set visited, [snd]
    the nodes in the order in which they are written. *)
Fixpoint visitM (fuel : nat) (e : edge) (st : list nptr * list nat) : M (list nptr * list nat) :=
  match fuel with
  | O => fail BadFuel
  | S f =>
    match ep e with
    | PTerm => ret st
    | PNull => fail BadNull
    | PNode n =>
        let* a := get in
        let* st' := foldM N (fun st c =>
            if existsb (nptr_eqb (ep c)) (fst st) then ret st else visitM f c (ep c :: fst st, snd st))
          (ne (nod a KM n)) st in
        ret (fst st', snd st' ++ [n])
    end
  end.

(** ** Writing *)

(** The successor as written (Export.hpp:699-704, 709-717, 744-748, 753-760).  [txt] is what becomes of a
    weight in the text format (toString and the reading of the two numbers); [None] is the binary
    format, which keeps the two doubles.  A node without index (nodeIndex[] would create one) is flagged. *)
Definition writeChild (txt : option (N * N -> N * N)) (a : st N) (ixs : list nat) (c : edge) : M (option (Z * (N * N))) :=
  let v := cval a (ew c) in
  let put i := ret (Some (i, match txt with Some t => t v | None => v end)) in
  if match txt with Some _ => wapx0 a (ew c) | None => false end then ret None
  else match ep c with
       | PTerm => put (-1)
       | PNull => fail BadNull
       | PNode m => match posOf m ixs with Some i => put (Z.of_nat i) | None => fail BadIndex end
       end.

(** The lines of the nodes [todo], in this order, when the nodes [done] have been written
    (Export.hpp:691-719, 734-762). *)
Fixpoint writeNodes (txt : option (N * N -> N * N)) (k : kind) (done todo : list nat) : M (list (frec (N * N))) :=
  match todo with
  | [] => ret []
  | n :: r =>
      let* a := get in
      let done' := done ++ [n] in
      match posOf n (firsts done') with
      | None => fail BadIndex
      | Some i =>
          let* es := mapM N (writeChild txt a (firsts done')) (ne (nod a k n)) in
          let* rs := writeNodes txt k done' r in
          ret (FR (Z.of_nat i) (nv (nod a k n)) es :: rs)
      end
  end.

(** serialize for vectors (Export.hpp:628-724) *)
Definition serializeV (fuel : nat) (txt : option (N * N -> N * N)) (e : edge) : M (file (N * N)) :=
  let* a := get in
  let* o := match ep e with PTerm => ret [] | _ => orderF fuel KV true (Some e) [] [] end in
  let* rs := writeNodes txt KV [] o in
  let v := cval a (ew e) in
  ret (FL (match txt with Some t => t v | None => v end) rs).

(** serialize for matrices (Export.hpp:765-777) *)
Definition serializeM (txt : option (N * N -> N * N)) (e : edge) : M (file (N * N)) :=
  let* a := get in
  let* st := visitM (Z.to_nat (s_nq a) + 2) e ([], []) in
  let* rs := writeNodes txt KM [] (snd st) in
  let v := cval a (ew e) in
  ret (FL (match txt with Some t => t v | None => v end) rs).

(** ** Reading and copying *)

(** The successors of a new node (Package.hpp:3087-3099, 2937-2945): an index without node gives a null
    pointer.  [look] is the lookup of weights. *)
Definition readChild {W} (look : W -> M complex) (nodes : list (Z * nptr)) (c : option (Z * W)) : M edge :=
  match c with
  | None => ret Ezero
  | Some (i, w) =>
      if i =? -2 then ret Ezero
      else let* u := look w in
           ret (Ed (if i =? -1 then PTerm else match ixFind nodes i with Some p => p | None => PNull end) u)
  end.
(** deserializeNode (Package.hpp:3081-3108) and its counterpart in the copying function
    (Package.hpp:2937-2947): the new nodes and the edge made. *)
Definition readNode {W} (look : W -> M complex) (k : kind) (nodes : list (Z * nptr)) (r : frec W) : M (list (Z * nptr) * edge) :=
  if fr_ix r =? -1 then ret (nodes, Ezero)
  else
    let* es := mapM N (readChild look nodes) (fr_es r) in
    let* e := makeDDNode k (fr_v r) es false in
    ret ((fr_ix r, ep e) :: nodes, e).
(** All lines (Package.hpp:2991-2998, 3027-3058); the last edge counts. *)
Fixpoint readNodes {W} (look : W -> M complex) (k : kind) (nodes : list (Z * nptr)) (e : edge) (rs : list (frec W)) : M edge :=
  match rs with
  | [] => ret e
  | r :: rest => let* p := readNode look k nodes r in readNodes look k (fst p) (snd p) rest
  end.
(** The weight of the root (Package.hpp:3061-3064, 2952-2955) *)
Definition rootWeight (v : N * N) (e : edge) : M edge :=
  let* c := getCached g v in
  mulInto c (ew e) c ;;;
  let* w := cn_lookupC g c in
  retCache c ;;;
  ret (Ed (ep e) w).

(** lookup of a pair of doubles (ComplexNumbers.hpp:156-187) *)
Definition lookV (v : N * N) : M complex := cn_lookup g (fst v) (snd v).
(** deserialize (Package.hpp:2968-3067) *)
Definition deserialize (k : kind) (fl : file (N * N)) : M edge :=
  let* e := readNodes lookV k [] Ezero (fl_rs fl) in
  rootWeight (fl_w fl) e.

(** lookup of a stored number of another package (ComplexNumbers.hpp:141-152): the pointers to zero and
    one are shared, other numbers are looked up by value. *)
Definition lookX (w : complex * (N * N)) : M complex :=
  if ceqb (fst w) Czero then ret Czero else if ceqb (fst w) Cone then ret Cone else lookV (snd w).

(** A node to be copied as a line (Package.hpp:2937-2945): its address in place of an index. *)
Definition copyRec (a : st N) (k : kind) (n : nat) : frec (complex * (N * N)) :=
  FR (Z.of_nat n) (nv (nod a k n))
     (map (fun c => Some (match ep c with PTerm => -1 | PNull => -3 | PNode m => Z.of_nat m end, (ew c, cval a (ew c)))) (ne (nod a k n))).

(** The part of the copying function that changes the target package (Package.hpp:2937-2959). *)
Definition rebuild (k : kind) (fl : file (complex * (N * N))) : M edge :=
  match fl_rs fl with
  | [] => let* w := lookX (fl_w fl) in ret (Ed PTerm w)
  | _ => let* e := readNodes lookX k [] Ezero (fl_rs fl) in rootWeight (snd (fl_w fl)) e
  end.

(** transfer (Package.hpp:2881-2961) of the edge [e] of the package [a].  The traversal only reads [a];
    it is done before the copying of the nodes, which it is interleaved with in the code. *)
Definition transfer (fuel : nat) (k : kind) (a : st N) (e : edge) : M edge :=
  match (match ep e with PTerm => ret [] | _ => orderF fuel k false (Some e) [] [] end) a with
  | Ok o _ => rebuild k (FL (ew e, cval a (ew e)) (map (copyRec a k) o))
  | Thr x _ => throw x
  | Bad b => fail b
  end.
End Serial.
