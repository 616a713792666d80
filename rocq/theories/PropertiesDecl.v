(** Declaration specifiers (C37). *)
From Coq Require Import ZArith List Bool Permutation.
From Verif Require Import Base DeclSpec DeclModel DeclProofs.
Import ListNotations.
Local Open Scope Z_scope.

(** Specifiers of any length in any order, with qualifiers and storage classes in between:
    accepted exactly when the type specifiers are one of the combinations of the standard. *)
Theorem C37_keywords : forall c23 auty inferred l rest,
  Forall plain l -> storage_ok l -> signs_once l -> kws l <> [] -> stops (kws l) rest ->
  match declspec AnyAttr c23 auty inferred (l ++ rest) with
  | Ok (t, a, r) =>
      exists b, denotes (kws l) b /\ t = mkt (Basic b) (quals_in l) /\ a = attr_of l no_attr /\ r = rest
  | UB => False
  | Abort => forall b, ~ denotes (kws l) b
  end.
Proof. exact declspec_kw. Qed.
Print Assumptions C37_keywords.

Theorem C37_one_type : forall ks b b', denotes ks b -> denotes ks b' -> b = b'.
Proof. exact denotes_one. Qed.
Print Assumptions C37_one_type.

Example C37_keywords_example :
  let l := [TKw KLong; TStor SStatic; TKw KUnsigned; TQual QConst; TKw KInt; TKw KLong] in
  Forall plain l /\ storage_ok l /\ signs_once l /\ denotes (kws l) BULLong /\
  declspec AnyAttr false false Abort (l ++ [TName (mkt (Other 7) noq); TStop]) =
    Ok (mkt (Basic BULLong) (mkq false true false false),
        mkattr false true false false false false false 0, [TName (mkt (Other 7) noq); TStop]) /\
  declspec AnyAttr false false Abort ([TKw KLong; TKw KInt; TKw KLong; TKw KLong; TStop]) = Abort.
Proof.
  cbv zeta. split; [repeat constructor|]. split; [intros H; discriminate H|]. split; [split; vm_compute; auto|].
  split.
  { exists [KUnsigned; KLong; KLong; KInt]. split; [cbn; tauto|]. apply permb_spec. reflexivity. }
  split; vm_compute; reflexivity.
Qed.

(** Structs, unions, enums and typedef names. *)
Theorem C37_other : forall c23 auty inferred l1 x t l2 rest, x = TTag t \/ x = TName t ->
  Forall no_type (l1 ++ l2) -> storage_ok (l1 ++ l2) -> stops [KInt] rest ->
  quals_in (l1 ++ l2) = noq \/ tquals t = noq ->
  declspec AnyAttr c23 auty inferred (l1 ++ x :: l2 ++ rest) =
  Ok (mkt (tbase t) (union_q (tquals t) (quals_in (l1 ++ l2))), attr_of (l1 ++ l2) no_attr, rest).
Proof. exact declspec_other. Qed.
Print Assumptions C37_other.

Theorem C37_two_types : forall c23 auty inferred l1 x t l2 k rest, x = TTag t \/ x = TName t ->
  Forall no_type (l1 ++ l2) -> storage_ok (l1 ++ l2) ->
  declspec AnyAttr c23 auty inferred (l1 ++ x :: l2 ++ TKw k :: rest) = Abort.
Proof. exact declspec_two. Qed.
Print Assumptions C37_two_types.

Theorem C37_tag_after_type : forall c23 auty inferred l t rest, Forall plain l -> kws l <> [] ->
  declspec AnyAttr c23 auty inferred (l ++ TTag t :: rest) = Abort.
Proof. exact declspec_tag. Qed.
Print Assumptions C37_tag_after_type.

Theorem C37_two_tags : forall c23 auty inferred l1 x t' l2 t rest, x = TTag t' \/ x = TName t' ->
  Forall no_type l1 -> storage_ok l1 -> Forall plain l2 ->
  declspec AnyAttr c23 auty inferred (l1 ++ x :: l2 ++ TTag t :: rest) = Abort.
Proof. exact declspec_two_tags. Qed.
Print Assumptions C37_two_tags.

Example C37_two_types_example :
  let t := mkt (Other 3) noq in
  declspec AnyAttr false false Abort [TQual QConst; TName t; TStor STypedef; TKw KInt; TStop] = Abort /\
  declspec AnyAttr false false Abort [TKw KInt; TQual QConst; TTag t; TStop] = Abort /\
  declspec AnyAttr false false Abort [TTag t; TQual QConst; TTag t; TStop] = Abort.
Proof. repeat split; vm_compute; reflexivity. Qed.

Example C37_other_example :
  let t := mkt (Other 3) noq in
  declspec AnyAttr false false Abort [TQual QConst; TName t; TStor STypedef; TName t; TStop] =
  Ok (mkt (Other 3) (mkq false true false false), mkattr true false false false false false false 0, [TName t; TStop]).
Proof. vm_compute. reflexivity. Qed.

(** Defects. A qualifier next to a typedef name drops the qualifiers the name carries:
    [typedef _Atomic int T; volatile T x;] declares a non-atomic [x]. *)
Theorem C37_qualifiers_refuted :
  let T := TName (mkt (Basic BInt) (mkq true false false false)) in
  ~ (forall r a l, declspec AnyAttr true true Abort [TQual QVolatile; T; TStop] = Ok (r, a, l) ->
       tquals r = union_q (mkq true false false false) (mkq false false true false)).
Proof. intros T H. specialize (H _ _ _ eq_refl). vm_compute in H. discriminate H. Qed.

(** [signed signed int] is accepted. *)
Theorem C37_signed_twice_refuted :
  ~ (forall l rest t a r, Forall plain l -> stops (kws l) rest ->
       declspec AnyAttr true true Abort (l ++ rest) = Ok (t, a, r) -> exists b, denotes (kws l) b).
Proof.
  intros H. destruct (H [TKw KSigned; TKw KSigned; TKw KInt] [TStop] _ _ _ ltac:(repeat constructor) Logic.I eq_refl)
    as (b & row & IN & P).
  apply permb_spec in P. assert (E : existsb (fun p => permb [KSigned; KSigned; KInt] (fst p)) table = true).
  { apply existsb_exists. exists (row, b). auto. }
  vm_compute in E. discriminate E.
Qed.

(** No type specifier at all is accepted as int. *)
Theorem C37_implicit_int_refuted :
  ~ (forall l rest t a r, Forall plain l -> stops (kws l) rest ->
       declspec AnyAttr true true Abort (l ++ rest) = Ok (t, a, r) -> kws l <> []).
Proof.
  intros H. exact (H [TQual QConst] [TStop] _ _ _ ltac:(repeat constructor) Logic.I eq_refl eq_refl).
Qed.

(** [typedef static int T;] is accepted. *)
Theorem C37_storage_refuted :
  ~ (forall l rest t a r, Forall plain l -> stops (kws l) rest ->
       declspec AnyAttr true true Abort (l ++ rest) = Ok (t, a, r) -> storage_ok l).
Proof.
  intros H.
  destruct (H [TStor STypedef; TStor SStatic; TKw KInt] [TStop] _ _ _ ltac:(repeat constructor) Logic.I eq_refl eq_refl) as [E _].
  discriminate E.
Qed.

(** _Atomic(type) does not count as a type specifier: [_Atomic(int) long x;] is accepted (as an
    atomic long), and in [_Atomic(int) T;] a typedef name [T] is not the name declared. *)
Theorem C37_atomic_refuted :
  let int := mkt (Basic BInt) noq in let T := TName (mkt (Other 3) noq) in
  declspec AnyAttr true true Abort [TAtomicOf int; TKw KLong; TStop] =
    Ok (mkt (Basic BLong) (mkq true false false false), no_attr, [TStop]) /\
  declspec AnyAttr true true Abort [TAtomicOf int; T; TStop] =
    Ok (mkt (Other 3) (mkq true false false false), no_attr, [TStop]).
Proof. split; vm_compute; reflexivity. Qed.
