(** Model of the arena allocator, alloc.c:11-110 (USE_ASAN off), and of strarray_push,
    strings.c:3-17.

    Simplifications: pages are numbered along the list [head_page, head_page->next, ...];
    malloc returns a page with unknown contents, so page contents are one function
    [nat -> Z -> Z] that is arbitrary initially; an access outside a page's buf is UB. *)
From Coq Require Import ZArith List Bool.
From Verif Require Import Base.
Import ListNotations.
Local Open Scope Z_scope.

(** alloc.c:12 *)
Definition PAGE_SIZE : Z := 4064.

Definition memory := nat -> Z -> Z.

(** Arena, slimcc.h: the current page, the bytes used in it, and all page contents *)
Record arena : Type := mkarena { page : nat; aused : Z; amem : memory }.

(** A block returned to the client: page number and offset of its first byte *)
Record block : Type := mkblock { bpage : nat; boff : Z }.

(** alloc.c:44: [(sz + 15) & -16LL] in size_t *)
Definition aligned_size (sz : Z) : Z := Z.land ((sz + 15) mod two64) (two64 - 16).

(** alloc.c:65-66: store of one int64_t zero *)
Definition zero8 (m : memory) (p : nat) (o : Z) : memory :=
  fun p' o' => if Nat.eqb p' p && (o <=? o') && (o' <? o + 8) then 0 else m p' o'.

Fixpoint zero_words (n : nat) (m : memory) (p : nat) (o : Z) : outcome memory :=
  match n with
  | O => Ok m
  | S n' =>
      if (0 <=? o) && (o + 8 <=? PAGE_SIZE) then zero_words n' (zero8 m p o) p (o + 8)
      else UB
  end.

(** alloc.c:43-69 *)
Definition allocate (a : arena) (sz : Z) (clear : bool) : outcome (block * arena) :=
  let asz := aligned_size sz in
  let '(b, a1) :=
    if ((aused a + asz) mod two64 <=? PAGE_SIZE)
    then (mkblock (page a) (aused a), mkarena (page a) (aused a + asz) (amem a))
    else (mkblock (S (page a)) 0, mkarena (S (page a)) asz (amem a)) in
  if clear then
    do m <- zero_words (Z.to_nat (Z.shiftr asz 3)) (amem a1) (bpage b) (boff b);
    Ok (b, mkarena (page a1) (aused a1) m)
  else Ok (b, a1).

(** alloc.c:71-78 *)
Definition arena_on (m : memory) : arena := mkarena 0 0 m.

(** A session between arena_on and arena_off: requests (size, clear?), answered by the
    block and the arena after the call. *)
Fixpoint session (reqs : list (Z * bool)) (a : arena) : outcome (list (block * arena)) :=
  match reqs with
  | [] => Ok []
  | (sz, c) :: r =>
      do x <- allocate a sz c;
      do y <- session r (snd x);
      Ok (x :: y)
  end.

(** StringArray, slimcc.h; [sdata = None] is NULL, otherwise the allocated array
    (NULL elements are None) *)
Record strarray (A : Type) : Type := mkstr { sdata : option (list (option A)); slen : Z; scap : Z }.
Arguments mkstr {A}. Arguments sdata {A}. Arguments slen {A}. Arguments scap {A}.

(** strings.c:3-17. realloc keeps the old elements; the new half is set to NULL by the
    loop of lines 12-13. A store outside the array is UB, so is int overflow. *)
Definition strarray_push {A} (arr : strarray A) (s : A) : outcome (strarray A) :=
  let '(d, cap) := match sdata arr with
                   | None => (repeat None 8, 8)
                   | Some d => (d, scap arr)
                   end in
  do dc <- (if cap =? slen arr then
              do cap' <- int_of (cap * 2);
              Ok (firstn (Z.to_nat cap') (d ++ repeat None (Z.to_nat (cap' - slen arr))), cap')
            else Ok (d, cap));
  if (0 <=? slen arr) && (slen arr <? Z.of_nat (length (fst dc)))
  then do l' <- int_of (slen arr + 1);
       Ok (mkstr (Some (upd (fst dc) (Z.to_nat (slen arr)) (Some s))) l' (snd dc))
  else UB.

Fixpoint push_all {A} (arr : strarray A) (l : list A) : outcome (strarray A) :=
  match l with
  | [] => Ok arr
  | s :: r => do a <- strarray_push arr s; push_all a r
  end.

Definition empty_strarray {A} : strarray A := mkstr None 0 0.
