(** C03, C48: arena allocator and string arrays. *)
From Coq Require Import ZArith List Lia.
From Verif Require Import Base ArenaModel ArenaSpec ArenaProofs.
Import ListNotations.
Local Open Scope Z_scope.

(** C03. In a session starting from any memory contents, every request of at most one page
    is answered by a 16-aligned block inside a page buffer; cleared blocks are zero when
    returned; blocks are pairwise disjoint, and no later allocation changes a byte of an
    earlier block. *)
Theorem C03_arena_blocks : forall m reqs,
  Forall (fun r => 0 <= fst r <= 4064) reqs ->
  exists out, session reqs (arena_on m) = Ok out /\ length out = length reqs /\
   (forall i x r, nth_error out i = Some x -> nth_error reqs i = Some r ->
      (exists q, boff (fst x) = 16 * q) /\ 0 <= boff (fst x) /\
      boff (fst x) + fst r <= 4064 /\
      (snd r = true -> forall o, boff (fst x) <= o < boff (fst x) + fst r ->
          amem (snd x) (bpage (fst x)) o = 0)) /\
   (forall i j x y r r', (i < j)%nat -> nth_error out i = Some x -> nth_error out j = Some y ->
      nth_error reqs i = Some r -> nth_error reqs j = Some r' ->
      disjoint (mkrange (bpage (fst x)) (boff (fst x)) (fst r))
               (mkrange (bpage (fst y)) (boff (fst y)) (fst r')) /\
      (forall p o, covers (mkrange (bpage (fst x)) (boff (fst x)) (fst r)) p o ->
         amem (snd y) p o = amem (snd x) p o)).
Proof. exact arena_session_ok. Qed.
Print Assumptions C03_arena_blocks.

Definition example_reqs : list (Z * bool) :=
  [(24, true); (4000, false); (4064, true); (0, true); (1, false); (100, true)].
Example C03_ex : Forall (fun r => 0 <= fst r <= 4064) example_reqs.
Proof. repeat constructor; cbn; lia. Qed.

(** A clearing request larger than a page writes outside the page. *)
Theorem C03_arena_any_size_refuted :
  exists sz, sz = PAGE_SIZE + 1 /\ session [(sz, true)] (arena_on (fun _ _ => 7)) = UB.
Proof. exact arena_big_refuted. Qed.
Print Assumptions C03_arena_any_size_refuted.

(** C48. After any number of pushes (below the int limit) the array holds exactly the
    pushed elements in order, and no store left the allocation (that would be UB). *)
Theorem C48_strarray_is_list : forall (A : Type) (l : list A),
  Z.of_nat (length l) <= 1073741823 ->
  exists arr, push_all empty_strarray l = Ok arr /\ slen arr = Z.of_nat (length l) /\
    (l <> [] -> exists d, sdata arr = Some d /\ scap arr = Z.of_nat (length d) /\
      slen arr <= scap arr /\
      forall i, nth_error (firstn (length l) d) i = option_map Some (nth_error l i)).
Proof. exact @strarray_is_list. Qed.
Print Assumptions C48_strarray_is_list.

Example C48_ex : Z.of_nat (length (seq 0 20)) <= 1073741823 /\
  exists arr, push_all empty_strarray (seq 0 20) = Ok arr /\ scap arr = 32.
Proof. split; [vm_compute; discriminate|]. eexists. split; vm_compute; reflexivity. Qed.
