(** Model of the table of real numbers, include/dd/ComplexTable.hpp. *)
From Coq Require Import ZArith List Bool Lia Arith.
From Verif Require Import Num Base.
Import ListNotations.
Local Open Scope Z_scope.

(** Template parameters (ComplexTable.hpp:26). *)
Record ctcfg := CTcfg {
  cf_nbucket : Z;      (* NBUCKET *)
  cf_initalloc : Z;    (* INITIAL_ALLOCATION_SIZE *)
  cf_growth : Z;       (* GROWTH_FACTOR *)
  cf_initgc : Z        (* INITIAL_GC_LIMIT *)
}.

(** The defaults (ComplexTable.hpp:26). *)
Definition ct_default : ctcfg := CTcfg 65537 2048 2 65536.

(** [std::numeric_limits<RefCount>::max()], RefCount = uint32 (Definitions.hpp:28). *)
Definition RCMAX : Z := 4294967295.

(** Where a number is stored: one of the three static entries
    (ComplexTable.hpp:109-111), an entry of the table, or an entry of the cache
    (ComplexCache.hpp).  [ATab n] is the n-th entry ever taken from the table's
    chunks: (chunk, offset) pairs are flattened to a running index. *)
Inductive eaddr := AZero | ASqrt2 | AOne | ATab (n : nat) | ACache (n : nat).

(** An [Entry*] with the sign in its least significant bit (ComplexTable.hpp:34-60). *)
Record eptr := EP { ep_neg : bool; ep_at : eaddr }.

(** Equality of addresses (ComplexTable.hpp:34-60). *)
Definition eaddr_eqb (a b : eaddr) : bool :=
  match a, b with
  | AZero, AZero | ASqrt2, ASqrt2 | AOne, AOne => true
  | ATab n, ATab m => Nat.eqb n m
  | ACache n, ACache m => Nat.eqb n m
  | _, _ => false
  end.

(** Pointer comparison [==] of tagged pointers (ComplexTable.hpp:34-65, used e.g. in Complex.hpp:50-52). *)
Definition eptr_eqb (p q : eptr) : bool :=
  Bool.eqb (ep_neg p) (ep_neg q) && eaddr_eqb (ep_at p) (ep_at q).

(** getAlignedPointer (ComplexTable.hpp:39-41) *)
Definition ep_aligned (p : eptr) : eptr := EP false (ep_at p).
(** getNegativePointer (ComplexTable.hpp:43-45) *)
Definition ep_negative (p : eptr) : eptr := EP true (ep_at p).
(** flipPointerSign (ComplexTable.hpp:55-61): the static zero is left alone. *)
Definition ep_flip (p : eptr) : eptr :=
  if eptr_eqb p (EP false AZero) then p else EP (negb (ep_neg p)) (ep_at p).

Section Table.
Context (N : num) (cf : ctcfg).

(** approximatelyEquals(fp, fp) (ComplexTable.hpp:84-87).  The shortcut
    [left == right] is part of the comparison: for finite values it is subsumed by
    the tolerance test when the tolerance is non-negative, and it is kept here. *)
Definition approx_eq (a b : N) : bool :=
  (nleb a b && nleb b a) || nleb (nabs (nsub a b)) ntol.
(** approximatelyZero(fp) (ComplexTable.hpp:92-94) *)
Definition approx_zero (a : N) : bool := nleb (nabs a) ntol.
(** approximatelyOne(fp) (ComplexTable.hpp:99-101) *)
Definition approx_one (a : N) : bool := approx_eq a n1.

(** MASK (ComplexTable.hpp:128) *)
Definition ct_mask : Z := cf_nbucket cf - 1.

(** hash (ComplexTable.hpp:131-135) with its [assert(val >= 0)]. *)
Definition ct_hash (v : N) : Z + bad :=
  if nleb n0 v then
    match nkey ct_mask v with
    | Some k => if k <? 0 then inr BadNum else inl (Z.min k ct_mask)
    | None => inr BadNum
    end
  else inr BadNum.

(** Entry (ComplexTable.hpp:29-32) without its [next] field: chains are lists. *)
Record centry := CE { ce_val : N; ce_rc : Z }.

(** The table object (ComplexTable.hpp:471-505).  Statistics counters that only
    count collisions/neighbours are omitted. *)
Record ctab := CTab {
  ct_heap : nat -> centry;         (* all entries of all chunks *)
  ct_tab : Z -> list nat;          (* table: bucket -> chain *)
  ct_tail : Z -> option nat;       (* tailTable *)
  ct_avail : list nat;             (* available *)
  ct_next : nat;                   (* chunkIt, as running index *)
  ct_allocs : Z;                   (* allocations: index of chunkEndIt *)
  ct_allocsz : Z;                  (* allocationSize *)
  ct_count : Z;
  ct_peak : Z;
  ct_gccalls : Z;
  ct_gcruns : Z;
  ct_gclimit : Z;
  ct_lookups : Z;
  ct_hits : Z;
  ct_inserts : Z
}.

(** Field initialisers (ComplexTable.hpp:474-505), before the constructor body. *)
Definition ct_empty : ctab :=
  CTab (fun _ => CE n0 0) (fun _ => []) (fun _ => None) [] 0
       (cf_initalloc cf) (cf_initalloc cf * cf_growth cf) 0 0 0 0 100000 0 0 0.

(** Writing to the entries in the chunks (ComplexTable.hpp:226-249). *)
Definition set_heap (c : ctab) h : ctab :=
  CTab h (ct_tab c) (ct_tail c) (ct_avail c) (ct_next c) (ct_allocs c) (ct_allocsz c)
       (ct_count c) (ct_peak c) (ct_gccalls c) (ct_gcruns c) (ct_gclimit c)
       (ct_lookups c) (ct_hits c) (ct_inserts c).

(** ++lookups (ComplexTable.hpp:153) *)
Definition ct_tick_lookup (c : ctab) : ctab :=
  CTab (ct_heap c) (ct_tab c) (ct_tail c) (ct_avail c) (ct_next c) (ct_allocs c) (ct_allocsz c)
       (ct_count c) (ct_peak c) (ct_gccalls c) (ct_gcruns c) (ct_gclimit c)
       (ct_lookups c + 1) (ct_hits c) (ct_inserts c).
(** ++hits (ComplexTable.hpp:155 and others) *)
Definition ct_tick_hit (c : ctab) : ctab :=
  CTab (ct_heap c) (ct_tab c) (ct_tail c) (ct_avail c) (ct_next c) (ct_allocs c) (ct_allocsz c)
       (ct_count c) (ct_peak c) (ct_gccalls c) (ct_gcruns c) (ct_gclimit c)
       (ct_lookups c) (ct_hits c + 1) (ct_inserts c).

(** getEntry (ComplexTable.hpp:226-249). *)
Definition ct_getEntry (c : ctab) : nat * ctab :=
  match ct_avail c with
  | a :: rest =>
      (a, CTab (upd (ct_heap c) a (CE (ce_val (ct_heap c a)) 0)) (ct_tab c) (ct_tail c) rest
               (ct_next c) (ct_allocs c) (ct_allocsz c) (ct_count c) (ct_peak c)
               (ct_gccalls c) (ct_gcruns c) (ct_gclimit c)
               (ct_lookups c) (ct_hits c) (ct_inserts c))
  | [] =>
      let full := Z.of_nat (ct_next c) =? ct_allocs c in
      (ct_next c,
       CTab (ct_heap c) (ct_tab c) (ct_tail c) [] (S (ct_next c))
            (if full then ct_allocs c + ct_allocsz c else ct_allocs c)
            (if full then ct_allocsz c * cf_growth cf else ct_allocsz c)
            (ct_count c) (ct_peak c) (ct_gccalls c) (ct_gcruns c) (ct_gclimit c)
            (ct_lookups c) (ct_hits c) (ct_inserts c))
  end.

(** Value stored at an address of the table (ComplexTable.hpp:30). *)
Definition ct_value (c : ctab) (a : nat) : N := ce_val (ct_heap c a).

(** The end of findOrInsert and of insert (ComplexTable.hpp:535-553, 565-588):
    take an entry, store [val], splice it between [pre] and [post] in bucket [key],
    update the tail if it became last, count it. *)
Definition ct_splice (c : ctab) (key : Z) (pre post : list nat) (val : N) : nat * ctab :=
  let '(a, c1) := ct_getEntry c in
  let count := ct_count c1 + 1 in
  (a, CTab (upd (ct_heap c1) a (CE val (ce_rc (ct_heap c1 a))))
           (updZ (ct_tab c1) key (pre ++ a :: post))
           (match post with [] => updZ (ct_tail c1) key (Some a) | _ => ct_tail c1 end)
           (ct_avail c1) (ct_next c1) (ct_allocs c1) (ct_allocsz c1)
           count (Z.max (ct_peak c1) count)
           (ct_gccalls c1) (ct_gcruns c1) (ct_gclimit c1)
           (ct_lookups c1) (ct_hits c1) (ct_inserts c1 + 1)).

(** Loop of findOrInsert (ComplexTable.hpp:513-533): [inl a] = found [a],
    [inr (pre, post)] = insert between [pre] and [post]. *)
Fixpoint ct_scan (c : ctab) (val valTol : N) (pre chain : list nat)
  : nat + (list nat * list nat) :=
  match chain with
  | [] => inr (pre, [])
  | curr :: rest =>
      if nleb (ct_value c curr) valTol then
        if approx_eq (ct_value c curr) val then
          match rest with
          | next :: _ =>
              if nleb (ct_value c next) valTol
                 && nltb (nabs (nsub (ct_value c next) val)) (nabs (nsub (ct_value c curr) val))
              then inl next else inl curr
          | [] => inl curr
          end
        else ct_scan c val valTol (pre ++ [curr]) rest
      else inr (pre, chain)
  end.

(** findOrInsert (ComplexTable.hpp:507-554) *)
Definition ct_findOrInsert (c : ctab) (key : Z) (val : N) : nat * ctab :=
  match ct_scan c val (nadd val ntol) [] (ct_tab c key) with
  | inl a => (a, ct_tick_hit c)
  | inr (pre, post) => ct_splice c key pre post val
  end.

(** Loop of insert (ComplexTable.hpp:571-575). *)
Fixpoint ct_insertPos (c : ctab) (val : N) (pre chain : list nat) : list nat * list nat :=
  match chain with
  | [] => (pre, [])
  | curr :: rest =>
      if nleb (ct_value c curr) val then ct_insertPos c val (pre ++ [curr]) rest
      else (pre, chain)
  end.

(** insert (ComplexTable.hpp:563-590) *)
Definition ct_insert (c : ctab) (key : Z) (val : N) : nat * ctab :=
  let '(pre, post) := ct_insertPos c val [] (ct_tab c key) in
  ct_splice c key pre post val.

(** The comparison with a candidate entry, if there is one (ComplexTable.hpp:150-224). *)
Definition ct_match (c : ctab) (val : N) (p : option nat) : bool :=
  match p with None => false | Some a => approx_eq val (ct_value c a) end.

(** lookup(fp) (ComplexTable.hpp:150-224), with its assertions !isnan(val), val >= 0
    (both fail iff [0 <= val] is false). *)
Definition ct_lookup (c0 : ctab) (val : N) : (eaddr * ctab) + bad :=
  if negb (nleb n0 val) then inr BadNum
  else
  let c := ct_tick_lookup c0 in
  if approx_zero val then inl (AZero, ct_tick_hit c)
  else if approx_one val then inl (AOne, ct_tick_hit c)
  else if approx_eq val nsq2 then inl (ASqrt2, ct_tick_hit c)
  else
  match ct_hash (nsub val ntol), ct_hash (nadd val ntol), ct_hash val with
  | inr b, _, _ => inr b
  | _, inr b, _ => inr b
  | inl lowerKey, inl upperKey, hk =>
    if upperKey =? lowerKey then
      let '(a, c1) := ct_findOrInsert c lowerKey val in inl (ATab a, c1)
    else
    match hk with
    | inr b => inr b
    | inl key =>
      let pLower := if negb (lowerKey =? key) then ct_tail c lowerKey else ct_tail c key in
      let pUpper := if negb (lowerKey =? key) then hd_error (ct_tab c key)
                    else hd_error (ct_tab c upperKey) in
      match ct_match c val pLower, ct_match c val pUpper, pLower, pUpper with
      | true, true, Some l, Some u =>
          if nltb (nabs (nsub (ct_value c l) val)) (nabs (nsub (ct_value c u) val))
          then inl (ATab l, ct_tick_hit c) else inl (ATab u, ct_tick_hit c)
      | true, _, Some l, _ => inl (ATab l, ct_tick_hit c)
      | _, true, _, Some u => inl (ATab u, ct_tick_hit c)
      | _, _, _, _ => let '(a, c1) := ct_insert c key val in inl (ATab a, c1)
      end
    end
  end.

(** Saturating increment (ComplexTable.hpp:267-273 and UniqueTable.hpp:158-163). *)
Definition rc_inc (r : Z) : Z := if r =? RCMAX then r else r + 1.
(** Decrement (ComplexTable.hpp:288-296 and UniqueTable.hpp:186-192): [None] = throws. *)
Definition rc_dec (r : Z) : option Z :=
  if r =? RCMAX then Some r else if r =? 0 then None else Some (r - 1).

(** incRef (ComplexTable.hpp:257-275) on an entry of the table; the static entries are
    never altered. *)
Definition ct_incRef (c : ctab) (p : eptr) : ctab :=
  match ep_at p with
  | ATab a => set_heap c (upd (ct_heap c) a (CE (ct_value c a) (rc_inc (ce_rc (ct_heap c a)))))
  | _ => c
  end.

(** decRef (ComplexTable.hpp:278-298); [None] = throws std::runtime_error. *)
Definition ct_decRef (c : ctab) (p : eptr) : option ctab :=
  match ep_at p with
  | ATab a =>
      match rc_dec (ce_rc (ct_heap c a)) with
      | Some r => Some (set_heap c (upd (ct_heap c) a (CE (ct_value c a) r)))
      | None => None
      end
  | _ => Some c
  end.

(** possiblyNeedsCollection (ComplexTable.hpp:300) *)
Definition ct_needsGC (c : ctab) : bool := ct_gclimit c <=? ct_count c.

(** Inner while loop of garbageCollect over one chain (ComplexTable.hpp:316-336):
    returns kept chain, free list, last kept entry, number collected, number kept. *)
Fixpoint gc_chain (rc : nat -> Z) (chain kept avail : list nat) (lastp : option nat)
         (collected remaining : Z) : list nat * list nat * option nat * Z * Z :=
  match chain with
  | [] => (kept, avail, lastp, collected, remaining)
  | p :: rest =>
      if rc p =? 0 then gc_chain rc rest kept (p :: avail) lastp (collected + 1) remaining
      else gc_chain rc rest (kept ++ [p]) avail (Some p) collected (remaining + 1)
  end.

(** Outer loop of garbageCollect over all buckets (ComplexTable.hpp:313-337).  The tail
    of an empty chain is not touched (the assignment is inside the while loop). *)
Fixpoint gc_buckets (rc : nat -> Z) (keys : list Z) (tab : Z -> list nat) (tail : Z -> option nat)
         (avail : list nat) (collected remaining : Z)
  : (Z -> list nat) * (Z -> option nat) * list nat * Z * Z :=
  match keys with
  | [] => (tab, tail, avail, collected, remaining)
  | k :: ks =>
      let '(kept, avail1, lastp, col1, rem1) :=
        gc_chain rc (tab k) [] avail None collected remaining in
      let tail1 := match tab k with [] => tail | _ => updZ tail k lastp end in
      gc_buckets rc ks (updZ tab k kept) tail1 avail1 col1 rem1
  end.

(** All bucket indices 0 .. NBUCKET-1 (ComplexTable.hpp:313). *)
Definition ct_keys : list Z := map Z.of_nat (seq 0 (Z.to_nat (cf_nbucket cf))).

(** Adjustment of the collection limit (ComplexTable.hpp:340-344, UniqueTable.hpp:243-247). *)
Definition gc_newlimit (initgc limit remaining : Z) : Z :=
  if limit / 10 * 9 <? remaining then remaining + initgc
  else if remaining <? limit / 128 then limit / 2 else limit.

(** garbageCollect (ComplexTable.hpp:302-347): number of collected entries. *)
Definition ct_gc (force : bool) (c : ctab) : Z * ctab :=
  let calls := ct_gccalls c + 1 in
  if (negb force && (ct_count c <? ct_gclimit c)) || (ct_count c <=? 1) then
    (0, CTab (ct_heap c) (ct_tab c) (ct_tail c) (ct_avail c) (ct_next c) (ct_allocs c)
             (ct_allocsz c) (ct_count c) (ct_peak c) calls (ct_gcruns c) (ct_gclimit c)
             (ct_lookups c) (ct_hits c) (ct_inserts c))
  else
    let '(tab, tail, avail, collected, remaining) :=
      gc_buckets (fun a => ce_rc (ct_heap c a)) ct_keys (ct_tab c) (ct_tail c) (ct_avail c) 0 0 in
    (collected,
     CTab (ct_heap c) tab tail avail (ct_next c) (ct_allocs c) (ct_allocsz c)
          remaining (ct_peak c) calls (ct_gcruns c + 1)
          (gc_newlimit (cf_initgc cf) (ct_gclimit c) remaining)
          (ct_lookups c) (ct_hits c) (ct_inserts c)).

(** clear (ComplexTable.hpp:349-391).  Chunks other than the first are released, so
    their addresses denote fresh entries (count 0) when handed out again; the first
    chunk's counts are reset.  Stored values stay behind in the first chunk. *)
Definition ct_clear (c : ctab) : ctab :=
  CTab (fun a => CE (ct_value c a) 0) (fun _ => []) (fun _ => None) [] 0
       (cf_initalloc cf) (cf_initalloc cf * cf_growth cf) 0 0 0 0 (cf_initgc cf) 0 0 0.

(** Constructor (ComplexTable.hpp:113-116): look up 1/2 and pin it. *)
Definition ct_init : ctab :=
  match ct_lookup ct_empty nhalf with
  | inl (a, c) => ct_incRef c (EP false a)
  | inr _ => ct_empty
  end.

End Table.

Arguments CTab {N}. Arguments CE {N}.
Arguments ct_heap {N}. Arguments ct_tab {N}. Arguments ct_tail {N}. Arguments ct_avail {N}.
Arguments ct_next {N}. Arguments ct_allocs {N}. Arguments ct_allocsz {N}. Arguments ct_count {N}.
Arguments ct_peak {N}. Arguments ct_gccalls {N}. Arguments ct_gcruns {N}. Arguments ct_gclimit {N}.
Arguments ct_lookups {N}. Arguments ct_hits {N}. Arguments ct_inserts {N}.
Arguments ce_val {N}. Arguments ce_rc {N}. Arguments ct_value {N}.
Arguments ct_getEntry {N}. Arguments ct_splice {N}. Arguments ct_scan {N}.
Arguments ct_findOrInsert {N}. Arguments ct_insertPos {N}. Arguments ct_insert {N}.
Arguments ct_match {N}. Arguments ct_lookup {N}. Arguments ct_incRef {N}. Arguments ct_decRef {N}.
Arguments ct_needsGC {N}. Arguments ct_gc {N}. Arguments ct_clear {N}. Arguments ct_init {N}.
Arguments ct_empty {N}. Arguments ct_tick_lookup {N}. Arguments ct_tick_hit {N}.
Arguments approx_eq {N}. Arguments approx_zero {N}. Arguments approx_one {N}.
Arguments ct_hash {N}. Arguments set_heap {N}.
