(** Scopes (C36) and dead function elimination (C33). *)
From Coq Require Import ZArith List Bool.
From Verif Require Import Base HashmapModel ScopeSpec ScopeModel ScopeProofs LiveSpec LiveModel LiveProofs.
Import ListNotations.
Local Open Scope Z_scope.

(** C36: every lookup of a translation unit finds the newest declaration of the innermost scope
    that has one, whatever the hash function, for up to 21474837 declarations. *)
Theorem C36_lookup : forall hash l out,
  Forall no_null l -> declared l <= 21474837 ->
  lookups [([], [])] l = Some out ->
  exists s, run_events hash (enter_scope []) l = Ok (s, out).
Proof.
  exact (fun hash l out N B H =>
    run_ok hash l (enter_scope []) [([], [])] 0 out
      (ag_cons hash _ _ _ _ _ _ _ (holds_empty hash) (holds_empty hash) (ag_nil hash 0))
      (Z.le_refl 0) B N H).
Qed.
Print Assumptions C36_lookup.

(** Leaving a block puts back the scopes as they were when it was entered. *)
Theorem C36_restore : forall hash l s r out,
  stays 1 l -> run_events hash s (Enter :: l) = Ok (r, out) -> r = s.
Proof. exact (fun hash l s r out ST RN => run_stays hash (Enter :: l) 0 [] s r out ST eq_refl RN). Qed.
Print Assumptions C36_restore.

Example C36_example :
  let a := [97] in let b := [98] in
  let l := [DeclVar a 1; DeclTag a 2; Enter; FindVar a; DeclVar a 3; DeclVar b 4; FindVar a; FindTag a;
            DeclVar a 5; FindVar a; Leave; FindVar a; FindVar b] in
  Forall no_null l /\ declared l = 5 /\ lookups [([], [])] l = Some [1; 3; 2; 5; 1; 0]%Z /\
  match run_events (fun _ => 7) (enter_scope []) l with Ok (_, o) => o = [1; 3; 2; 5; 1; 0] | _ => False end.
Proof.
  cbv zeta. split; [repeat constructor; discriminate|]. split; [reflexivity|].
  split; vm_compute; reflexivity.
Qed.
Example C36_restore_example :
  stays 1 [DeclVar [97] 3; Enter; FindVar [97]; DeclTag [97] 2; Leave; FindTag [97]; Leave] /\
  let s := [(empty_map, empty_map)] in
  match run_events (fun _ => 7) s
    (Enter :: [DeclVar [97] 3; Enter; FindVar [97]; DeclTag [97] 2; Leave; FindTag [97]; Leave]) with
  | Ok (r, out) => r = s /\ out = [3; 0] | _ => False end.
Proof. split; [cbn; intuition discriminate|vm_compute; auto]. Qed.

(** C33: the functions written are exactly the definitions needed, each once. *)
Theorem C33_written : forall find_func gs, names_ok find_func gs ->
  exists w, functions_written find_func gs = Ok w /\ NoDup w /\
    forall i, In i w <->
      needed find_func gs i /\ exists g, nth_error gs i = Some g /\ gdef g = true /\ gfunc g = true.
Proof. exact functions_written_ok. Qed.
Print Assumptions C33_written.

(** No written function mentions a function of the unit that is left out. *)
Theorem C33_closed : forall find_func gs, names_ok find_func gs ->
  forall w i j g, functions_written find_func gs = Ok w -> In i w -> mentions find_func gs i j ->
    nth_error gs j = Some g -> gdef g = true -> gfunc g = true -> In j w.
Proof. exact written_closed. Qed.
Print Assumptions C33_closed.

Theorem C33_roots : forall find_func gs, names_ok find_func gs ->
  forall w i, functions_written find_func gs = Ok w -> is_root gs i -> In i w.
Proof. exact written_roots. Qed.
Print Assumptions C33_roots.

(** main calls a, a and b call each other, c calls d, e is in a table. *)
Definition sample_find (n : list Z) : option nat :=
  match n with [i] => if (0 <=? i) && (i <? 6) then Some (Z.to_nat i) else None | _ => None end.
Definition sample_fn (s m : bool) (r : list (list Z)) : global :=
  {| gdef := true; gfunc := true; gstatic := s; ginline := s; mentioned := m; refs := r |}.
Definition sample_unit : list global :=
  [sample_fn false false [[1]; [77]]; sample_fn true false [[2]]; sample_fn true false [[1]];
   sample_fn true false [[4]]; sample_fn true false []; sample_fn true true []].
Example C33_example :
  names_ok sample_find sample_unit /\ functions_written sample_find sample_unit = Ok [0; 1; 2; 5]%nat.
Proof.
  split; [|vm_compute; reflexivity]. intros n j. unfold sample_find. destruct n as [|i [|]]; try discriminate.
  destruct (0 <=? i) eqn:A, (i <? 6) eqn:B; try discriminate. cbn [andb]. intros [= <-].
  change (length sample_unit) with 6%nat. apply Z.ltb_lt in B. apply Z.leb_le in A.
  apply (Z2Nat.inj_lt i 6); auto. discriminate.
Qed.
