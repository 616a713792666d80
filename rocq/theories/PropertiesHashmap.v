(** C01, C02: the symbol table (hashmap.c). *)
From Coq Require Import ZArith List.
From Verif Require Import Base HashmapModel HashmapSpec HashmapProofs.
Import ListNotations.
Local Open Scope Z_scope.

(** C01. The answers given by the table are those of a finite map, for every sequence of
    operations that puts at most 21474837 times. [tr] only renames the spec's events to
    the model's operations. *)
Theorem C01_hashmap_is_finite_map : forall evs,
  puts evs <= 21474837 ->
  exists m', run fnv_hash (map tr evs) empty_map = Ok (answers [] evs, m').
Proof. exact (hashmap_refines fnv_hash). Qed.
Print Assumptions C01_hashmap_is_finite_map.

(** The same for any hash function: correctness does not depend on FNV. *)
Theorem C01_hashmap_any_hash : forall (h : key -> Z) evs,
  puts evs <= 21474837 ->
  exists m', run h (map tr evs) empty_map = Ok (answers [] evs, m').
Proof. exact hashmap_refines. Qed.
Print Assumptions C01_hashmap_any_hash.

Definition example_events : list event :=
  map (fun i => EPut [Z.of_nat i; 65] (Z.of_nat i + 1)) (seq 0 40)
  ++ [EDel [3; 65]; EDel [7; 65]; EGet [3; 65]; EPut [3; 65] 99; EGet [3; 65]; EGet [7; 65];
      EGet [39; 65]; EGet []].
Example C01_ex : puts example_events <= 21474837 /\
  exists m', run fnv_hash (map tr example_events) empty_map = Ok ([0; 99; 0; 40; 0], m').
Proof. split; [vm_compute; discriminate|]. eexists. vm_compute. reflexivity. Qed.

(** C02. No operation sequence, however long, reaches an internal error or a failed
    assertion, and an initialised table always keeps a slot that was never used. *)
Theorem C02_hashmap_never_aborts : forall evs,
  run fnv_hash (map tr evs) empty_map <> Abort.
Proof. exact (fun evs => run_no_abort fnv_hash evs _ _ (rep_empty fnv_hash)). Qed.
Print Assumptions C02_hashmap_never_aborts.

Theorem C02_hashmap_spare_slot : forall evs q m b,
  run fnv_hash (map tr evs) empty_map = Ok (q, m) -> buckets m = Some b -> In Empty b.
Proof. exact (fun evs q m b E => run_spare fnv_hash evs _ _ q m (rep_empty fnv_hash) E b). Qed.
Print Assumptions C02_hashmap_spare_slot.

Example C02_ex : exists q m b,
  run fnv_hash (map tr example_events) empty_map = Ok (q, m) /\ buckets m = Some b /\
  length b = 64%nat.
Proof. do 3 eexists. split; [vm_compute; reflexivity|]. split; reflexivity. Qed.

(** The wish "the table is a finite map for every sequence" is false: the int product
    [used * 100] overflows. *)
Theorem C02_hashmap_unbounded_refuted :
  exists evs, puts evs = 21474838 /\ run fnv_hash (map tr evs) empty_map = UB.
Proof. exact (hashmap_overflow fnv_hash). Qed.
Print Assumptions C02_hashmap_unbounded_refuted.
