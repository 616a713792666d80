(** Model of hashmap.c (whole file, lines 1-130).

    Simplifications:
    - a key is the byte list it points to (keys are never modified after insertion, so
      pointer + length and content coincide); [strlen] wrappers (103-105, 112-114,
      121-123) are the same functions with the length filled in;
    - a slot's key field NULL / TOMBSTONE / pointer is the constructor Empty / Tomb / Full;
      the stale keylen and val of a tombstone are never read and are dropped;
    - calloc never fails. *)
From Coq Require Import ZArith List Bool.
From Verif Require Import Base.
Import ListNotations.
Local Open Scope Z_scope.

Definition key := list Z.

(** HashEntry, slimcc.h. [val] is a pointer, 0 is NULL. *)
Inductive slot : Type :=
| Empty
| Tomb
| Full (k : key) (v : Z).

(** HashMap, slimcc.h: [buckets = None] is the NULL pointer; capacity is the length of
    the bucket array. *)
Record hmap : Type := mkmap { buckets : option (list slot); used : Z }.

Definition empty_map : hmap := mkmap None 0.

(** hashmap.c:17-24 *)
Fixpoint fnv_loop (s : key) (hash : Z) : Z :=
  match s with
  | [] => hash
  | b :: r => fnv_loop r (Z.lxor ((hash * 1099511628211) mod two64) (b mod 256))
  end.
Definition fnv_hash (s : key) : Z := fnv_loop s 14695981039346656037.

Fixpoint key_eqb (a b : key) : bool :=
  match a, b with
  | [], [] => true
  | x :: a', y :: b' => (x =? y) && key_eqb a' b'
  | _, _ => false
  end.

(** hashmap.c:56-59 *)
Definition slot_match (s : slot) (k : key) : bool :=
  match s with
  | Full k' _ => key_eqb k' k
  | _ => false
  end.

Section Hash.
(** The hash function is a parameter of everything below; the properties instantiate
    it with [fnv_hash]. *)
Variable hash : key -> Z.

(** index computation of hashmap.c:68 and 88: [(hash + i) & (capacity - 1)], the sum in
    uint64_t *)
Definition index (h i : Z) (cap : Z) : nat :=
  Z.to_nat (Z.land ((h + i) mod two64) (cap - 1)).

(** The probe loop shared by get_entry (67-73) and get_or_insert_entry (87-99): index of
    the first slot that matches or is empty; [None] is falling out of the loop. *)
Inductive probe_result := Found (j : nat) | Vacant (j : nat) | Exhausted.

Fixpoint probe (b : list slot) (k : key) (fuel : nat) (i : Z) : probe_result :=
  match fuel with
  | O => Exhausted
  | S f =>
      let j := index (hash k) i (Z.of_nat (length b)) in
      match nth_error b j with
      | None => Exhausted
      | Some s =>
          if slot_match s k then Found j
          else match s with
               | Empty => Vacant j
               | _ => probe b k f (i + 1)
               end
      end
  end.

(** hashmap.c:61-75; [Ok None] is returning NULL *)
Definition get_entry (m : hmap) (k : key) : outcome (option nat) :=
  match buckets m with
  | None => Ok None
  | Some b =>
      match probe b k (length b) 0 with
      | Found j => Ok (Some j)
      | Vacant _ => Ok None
      | Exhausted => Abort
      end
  end.

(** hashmap.c:30-33 *)
Definition is_live (s : slot) : bool :=
  match s with Full _ _ => true | _ => false end.
Definition count_live (b : list slot) : Z := Z.of_nat (length (filter is_live b)).

(** hashmap.c:35-37; the loop is run with fuel, running out is an abort *)
Fixpoint grow (fuel : nat) (nkeys cap : Z) : outcome Z :=
  match fuel with
  | O => Abort
  | S f =>
      do p <- int_of (nkeys * 100);
      if p / cap >=? 50 then
        do cap' <- int_of (cap * 2);
        grow f nkeys cap'
      else Ok cap
  end.

(** hashmap.c:45-49: re-insertion of the live entries with [put] *)
Fixpoint reinsert (put : hmap -> key -> Z -> outcome hmap) (b : list slot) (m : hmap)
  : outcome hmap :=
  match b with
  | [] => Ok m
  | Full k v :: r => do m' <- put m k v; reinsert put r m'
  | _ :: r => reinsert put r m
  end.

(** hashmap.c:28-54; the assert of line 51 is an abort *)
Definition rehash (put : hmap -> key -> Z -> outcome hmap) (b : list slot)
  : outcome hmap :=
  let nkeys := count_live b in
  do cap <- grow 40 nkeys (Z.of_nat (length b));
  do m2 <- reinsert put b (mkmap (Some (repeat Empty (Z.to_nat cap))) 0);
  if used m2 =? nkeys then Ok m2 else Abort.

(** hashmap.c:85-101 followed by the store of line 118 *)
Definition insert_probe (b : list slot) (u : Z) (k : key) (v : Z) : outcome hmap :=
  match probe b k (length b) 0 with
  | Found j => Ok (mkmap (Some (upd b j (Full k v))) u)
  | Vacant j =>
      do u' <- int_of (u + 1);
      Ok (mkmap (Some (upd b j (Full k v))) u')
  | Exhausted => Abort
  end.

(** hashmap.c:77-101 and 116-119. The recursion put -> rehash -> put is bounded by
    [depth]; reaching depth 0 is an abort. *)
Fixpoint put2 (depth : nat) (m : hmap) (k : key) (v : Z) : outcome hmap :=
  match depth with
  | O => Abort
  | S d =>
      match buckets m with
      | None => insert_probe (repeat Empty 16) (used m) k v
      | Some b =>
          do p <- int_of (used m * 100);
          if p / Z.of_nat (length b) >=? 70 then
            do m' <- rehash (put2 d) b;
            match buckets m' with
            | None => Abort
            | Some b' => insert_probe b' (used m') k v
            end
          else insert_probe b (used m) k v
      end
  end.

(** hashmap.c:107-110; a slot found by the probe is live *)
Definition hashmap_get (m : hmap) (k : key) : outcome Z :=
  do e <- get_entry m k;
  match e, buckets m with
  | Some j, Some b =>
      match nth_error b j with
      | Some (Full _ v) => Ok v
      | _ => UB
      end
  | _, _ => Ok 0
  end.

(** hashmap.c:116-119 *)
Definition hashmap_put (m : hmap) (k : key) (v : Z) : outcome hmap := put2 2 m k v.

(** hashmap.c:125-129 *)
Definition hashmap_delete (m : hmap) (k : key) : outcome hmap :=
  do e <- get_entry m k;
  match e, buckets m with
  | Some j, Some b => Ok (mkmap (Some (upd b j Tomb)) (used m))
  | _, _ => Ok m
  end.

(** A client: a sequence of operations, collecting the results of the gets. *)
Inductive op := Put (k : key) (v : Z) | Get (k : key) | Delete (k : key).

Fixpoint run (ops : list op) (m : hmap) : outcome (list Z * hmap) :=
  match ops with
  | [] => Ok ([], m)
  | Put k v :: r => do m' <- hashmap_put m k v; run r m'
  | Delete k :: r => do m' <- hashmap_delete m k; run r m'
  | Get k :: r =>
      do v <- hashmap_get m k;
      do q <- run r m;
      Ok (v :: fst q, snd q)
  end.
End Hash.
