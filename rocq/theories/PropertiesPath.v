(** The include search list (C40), include lookups (C38), dependency output (C39). *)
From Coq Require Import ZArith List Bool.
From Verif Require Import Base PathSpec PathModel PathProofs PathLookup MakeSpec MakeModel MakeProofs.
Import ListNotations.
Local Open Scope Z_scope.

(** C40: for every sequence of options. *)
Theorem C40_search_list : forall std l, Forall c_string std -> Forall (fun o => c_string (opt_dir o)) l ->
  include_paths std l = Ok (search_list std l).
Proof. exact search_list_ok. Qed.
Print Assumptions C40_search_list.
Theorem C40_no_duplicates : forall std l, NoDup (search_list std l).
Proof. exact search_list_nodup. Qed.
Print Assumptions C40_no_duplicates.
Theorem C40_complete : forall std l p,
  In p (search_list std l) <-> In p (map strip (map opt_dir l ++ std)).
Proof. exact search_list_in. Qed.
Print Assumptions C40_complete.

Example C40_example :   (* a, b/, s, a//, -isystem s/, -idirafter s and z; standard directory: u *)
  include_paths [[117]]
    [OptI [97]; OptI [98; 47]; OptI [115]; OptI [97; 47; 47]; OptSystem [115; 47]; OptAfter [115]; OptAfter [122]] =
  Ok [[97]; [98]; [115]; [117]; [122]] /\
  Forall (fun o => c_string (opt_dir o)) [OptI [97]; OptI [98; 47]; OptSystem [115; 47]] /\
  strip [98; 47; 47] = [98] /\ strip [47; 47] = [47].
Proof. split; [vm_compute; reflexivity|]. split; [repeat constructor; discriminate|]. split; reflexivity. Qed.

(** C38: the files #include, __has_include, #embed and -include find do not depend on earlier
    lookups. *)
Theorem C38_paths : forall exists_ dirname dirs main l, Forall not_next l ->
  do_lookups exists_ dirname dirs (start main) l = fst (answers exists_ dirname dirs [(main, -1)] l).
Proof.
  exact (fun ex dn ds main l => paths_ok ex dn ds l (start main) [(main, -1)] (start_cache ex ds main)).
Qed.
Print Assumptions C38_paths.

(** With #include_next as well, if only directives look files up and no file is found in two
    different ways. *)
Theorem C38_next : forall exists_ dirname dirs main l, Forall directive l ->
  one_way (snd (answers exists_ dirname dirs [(main, -1)] l)) ->
  do_lookups exists_ dirname dirs (start main) l = fst (answers exists_ dirname dirs [(main, -1)] l).
Proof.
  exact (fun ex dn ds main l D O => directives_ok ex dn ds l (start main) [(main, -1)] (start_tracks ex ds main) D O).
Qed.
Print Assumptions C38_next.

(** Directories A B C; a.h in B, b.h in A and C. *)
Definition sample_dirs : list path := [[65]; [66]; [67]].
Definition sample_fs (p : path) : bool :=
  has_path p [inside [66] [97]; inside [65] [98]; inside [67] [98]; inside [66] [98; 47; 99]; inside [68] [98]].
Definition sample_dirname (p : path) : path := [46].
Example C38_example :
  let l := [Include [97] false [109]; Include [97] true [109]; Next [98] (inside [66] [97])] in
  Forall directive l /\
  snd (answers sample_fs sample_dirname sample_dirs [([109], -1)] l) =
    [(inside [67] [98], 2); (inside [66] [97], 1); (inside [66] [97], 1); ([109], -1)] /\
  do_lookups sample_fs sample_dirname sample_dirs (start [109]) l =
    [Some (inside [66] [97]); Some (inside [66] [97]); Some (inside [67] [98])].
Proof. split; [repeat constructor; discriminate|]. split; vm_compute; reflexivity. Qed.

(** Defect: after __has_include the directory is forgotten, and #include_next searches from the
    first directory again. *)
Theorem C38_has_include_refuted :
  ~ (forall exists_ dirname dirs main l, one_way (snd (answers exists_ dirname dirs [(main, -1)] l)) ->
     do_lookups exists_ dirname dirs (start main) l = fst (answers exists_ dirname dirs [(main, -1)] l)).
Proof.
  intros H.
  specialize (H sample_fs sample_dirname sample_dirs [109]
    [Peek [97] false [109]; Include [97] false [109]; Next [98] (inside [66] [97])]).
  assert (O : one_way (snd (answers sample_fs sample_dirname sample_dirs [([109], -1)]
    [Peek [97] false [109]; Include [97] false [109]; Next [98] (inside [66] [97])]))).
  { set (x := snd _). vm_compute in x. subst x. intros p i j. cbn [In].
    intros [A|[A|[A|[]]]] [B|[B|[B|[]]]]; congruence. }
  specialize (H O). vm_compute in H. discriminate H.
Qed.

(** Defect: a file reached in two ways keeps the directory of the first. *)
Theorem C38_two_ways_refuted :
  ~ (forall exists_ dirname dirs main l, Forall directive l ->
     do_lookups exists_ dirname dirs (start main) l = fst (answers exists_ dirname dirs [(main, -1)] l)).
Proof.
  (* directories B, B/b and D, with B/b/c, B/b/c seen as c, and b in D and B/b *)
  intros H.
  specialize (H (fun p => has_path p [inside [66] [98; 47; 99]; inside [66; 47; 98] [98]; inside [68] [98]])
    sample_dirname [[66]; [66; 47; 98]; [68]] [109]
    [Include [98; 47; 99] false [109]; Include [99] false [109]; Next [98] (inside [66] [98; 47; 99])]
    ltac:(repeat constructor; discriminate)).
  vm_compute in H. discriminate H.
Qed.

Definition sample_file (n : list Z) (s : bool) : dfile := {| dname := n; syshdr := s; is_input := true |}.
(** C39: quoting stays inside its buffer and make reads the name back. *)
Theorem C39_quote_bounds : forall s, exists q, quote_makefile s = Ok q.
Proof. exact (fun s => ex_intro _ _ (quote_ok s)). Qed.
Print Assumptions C39_quote_bounds.
Theorem C39_quote : forall s q rest, quotable false s -> quote_makefile s = Ok q ->
  word 0 (q ++ 58 :: rest) = Some (s, 58 :: rest).
Proof. exact quote_read. Qed.
Print Assumptions C39_quote.
(** The whole output, for prerequisites that need no quoting. *)
Theorem C39_dependencies : forall t MM MP l, t <> [] -> quotable false t ->
  Forall (fun f => wanted MM f = true -> unquoted (dname f)) l ->
  exists text, print_dependencies (Object t) MM MP l = Ok text /\
    forall fuel, (2 * length l + 2 < fuel)%nat ->
      rules fuel text = Some ((t, names MM l) :: if MP then phony_rules MM (tl l) else []).
Proof. exact dependencies_ok. Qed.
Print Assumptions C39_dependencies.

(** The -MP part, for names that can be quoted. *)
Theorem C39_phony : forall MM l, exists text, phony MM l = Ok text /\
  (Forall (fun f => wanted MM f = true -> dname f <> [] /\ quotable false (dname f)) l ->
   forall fuel, (2 * length l < fuel)%nat -> rules fuel text = Some (phony_rules MM l)).
Proof. exact phony_ok. Qed.
Print Assumptions C39_phony.
Example C39_phony_example :
  match phony false [sample_file [97; 32] false; sample_file [36] true] with
  | Ok t => rules 9 t = Some [([97; 32], []); ([36], [])] | _ => False end.
Proof. vm_compute. reflexivity. Qed.

Example C39_example :   (* a\ $x# b: *)
  quotable false [97; 92; 32; 36; 120; 35; 32; 98] /\
  quote_makefile [97; 92; 32; 36; 120; 35; 32; 98] = Ok [97; 92; 92; 92; 32; 36; 36; 120; 92; 35; 92; 32; 98].
Proof. split; [cbn; unfold NL; intuition discriminate|vm_compute; reflexivity]. Qed.
Example C39_dependencies_example :
  let l := [sample_file [97] false; sample_file [98; 98] false; sample_file [99] true] in
  Forall (fun f => wanted true f = true -> unquoted (dname f)) l /\
  match print_dependencies (Object [32; 111]) true true l with
  | Ok t => rules 20 t = Some [([32; 111], [[97]; [98; 98]]); ([98; 98], [])]
  | _ => False end.
Proof.
  split; [|vm_compute; reflexivity].
  repeat constructor; cbn; unfold BS, NL; intros; try discriminate; repeat constructor; discriminate.
Qed.

(** Defects: prerequisites are not quoted; a backslash before # or at the end and a colon are not
    quoted either. *)
Theorem C39_prerequisite_refuted :
  ~ (forall n text fuel rs, quotable false n -> n <> [] ->
     print_dependencies (Object [111]) false false [sample_file n false] = Ok text ->
     rules fuel text = Some rs -> rs = [([111], [n])]).
Proof.
  intros H. specialize (H [97; 32; 98] _ 10%nat _ ltac:(cbn; unfold NL; intuition discriminate) ltac:(discriminate) eq_refl eq_refl).
  discriminate H.
Qed.
Theorem C39_backslash_refuted :
  ~ (forall s q rest, Forall (fun c => c <> 0 /\ c <> NL /\ c <> 58) s -> quote_makefile s = Ok q ->
     word 0 (q ++ 58 :: rest) = Some (s, 58 :: rest)).
Proof.
  intros H. specialize (H [97; 92; 35] _ [] ltac:(repeat constructor; discriminate) eq_refl). vm_compute in H. discriminate H.
Qed.
Theorem C39_end_refuted :
  ~ (forall s q rest, Forall (fun c => c <> 0 /\ c <> NL /\ c <> 58 /\ c <> 35) s -> quote_makefile s = Ok q ->
     word 0 (q ++ 58 :: rest) = Some (s, 58 :: rest)).
Proof.
  intros H. specialize (H [97; 92] _ [] ltac:(repeat constructor; discriminate) eq_refl). vm_compute in H. discriminate H.
Qed.
Theorem C39_colon_refuted :
  ~ (forall s q rest, Forall (fun c => c <> 0 /\ c <> NL /\ c <> 92 /\ c <> 35) s -> quote_makefile s = Ok q ->
     word 0 (q ++ 58 :: rest) = Some (s, 58 :: rest)).
Proof.
  intros H. specialize (H [97; 58; 98] _ [] ltac:(repeat constructor; discriminate) eq_refl). vm_compute in H. discriminate H.
Qed.
