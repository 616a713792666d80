(** Every phrase of the C grammar is parsed to the tree it stands for: declarators, and all together. *)
From Coq Require Import String ZArith List Bool Lia.
From Verif Require Import Base DeclSpec DeclModel DeclProofs ExprSpec ExprModel ExprEqs ExprTotal ExprText ExprSpecs ExprComplete.
Import ListNotations.
Local Open Scope string_scope.
Local Open Scope list_scope.

Fixpoint cdepth (t : ctype) : nat :=
  match t with
  | CBase _ => 0
  | CPtr _ t | CArr _ _ t | CFun _ t => S (cdepth t)
  end.

(** What follows a declarator does not continue it. *)
Definition decl_end (rest : list tok) : Prop :=
  match rest with
  | [] => True
  | TP s :: _ => existsb (String.eqb s) ["("; "["; "*"] = false
  | TId _ :: _ | TD _ :: _ => False
  | _ => True
  end.

Lemma end_punct s rest : decl_end rest -> existsb (String.eqb s) ["("; "["; "*"] = true -> punct s rest = None.
Proof.
  intros H E. destruct rest as [|[x| | | | |] r]; try reflexivity. cbn [punct].
  destruct (String.eqb s x) eqn:X; [|reflexivity]. apply String.eqb_eq in X. subst x. cbn [decl_end] in H. congruence.
Qed.

Section Decls.
Variable tdef : string -> option dtype.
Variables c23 auty : bool.
Notation word := (word tdef).
Notation p_declarator := (declarator tdef c23 auty).
Notation p_suffix := (type_suffix tdef c23 auty).
Notation p_dims := (array_dimensions tdef c23 auty).
Notation p_fparams := (func_params tdef c23 auty).
Notation p_params := (params tdef c23 auty).
Notation P_ex := (P_ex tdef c23 auty).
Notation head_ok := (head_ok tdef).

(** * The claims *)
Definition P_decl (k : bool) (T : ctype) (ts : list tok) (x : option string) (T' : ctype) : Prop :=
  cdepth T <= cdepth T' /\
  forall nm rest, (k = true -> nm = true) -> decl_end rest ->
    ev (fun f => p_declarator f nm T (ts ++ rest)) (T', x, rest).
(** More brackets, or the end of them. *)
Definition cont (T : ctype) (R : list tok) (T0 : ctype) (rest : list tok) : Prop :=
  (punct "[" R = None /\ T0 = T /\ rest = R) \/
  (exists r, punct "[" R = Some r /\ ev (fun f => p_dims f T r) (T0, rest)).
Definition P_bound (us : list tok) (n : option etree) : Prop :=
  (forall r, match us ++ TP "]" :: r with TD _ :: _ => False | _ => True end) /\
  forall T R T0 rest, cont T R T0 rest -> ev (fun f => p_dims f T (us ++ TP "]" :: R)) (CArr noq n T0, rest).
Definition P_prms (us : list tok) (ps : option (list (option string * ctype) * bool)) : Prop :=
  forall rest,
    is_typename tdef (us ++ TP ")" :: rest)
      || match punct ")" (us ++ TP ")" :: rest) with Some _ => true | None => false end = true /\
    forall T, ev (fun f => p_fparams f T (us ++ TP ")" :: rest)) (CFun ps T, rest).
Definition void_only (ts : list tok) : Prop :=
  match ts with
  | TD (TKw KVoid) :: r => match r with [] => True | t :: _ => t = TP ")" end
  | _ => False
  end.
Definition p_head (ts : list tok) : Prop := match ts with [] => False | t :: _ => word t <> TStop end.
Definition P_parm (ts : list tok) (p : option string * ctype) : Prop :=
  p_head ts /\ ~ void_only ts /\
  forall rest, decl_end rest -> exists t r T,
    dspec tdef c23 auty (ts ++ rest) = POk (t, r) /\
    ev (fun f => p_declarator f true (CBase t) r) (T, fst p, rest) /\ snd p = adjust_param T.
Definition P_plist (ts : list tok) (l : list (option string * ctype)) : Prop :=
  p_head ts /\ ~ void_only ts /\
  forall (v : bool) rest,
    let e := if v then TP "," :: TP "..." :: TP ")" :: rest else TP ")" :: rest in
    ev (fun f => p_params f true (ts ++ e)) (l, v, rest) /\
    ev (fun f => p_params f false (TP "," :: ts ++ e)) (l, v, rest).

(** * Suffixes *)
Inductive arrs : ctype -> list tok -> ctype -> Prop :=
| arrs_nil : forall T, arrs T [] T
| arrs_cons : forall T us n vs T0, P_bound us n -> arrs T vs T0 ->
    arrs T (TP "[" :: us ++ TP "]" :: vs) (CArr noq n T0).
Inductive fb : list tok -> quals -> option etree -> Prop :=
| fb_q : forall qs us n, P_bound us n -> fb (TP "[" :: qwords qs ++ us ++ [TP "]"]) (qset qs) n
| fb_s : forall qs us n, P_bound us n ->
    fb (TP "[" :: qwords qs ++ TD (TStor SStatic) :: us ++ [TP "]"]) (qset qs) n.
Inductive suf : ctype -> list tok -> ctype -> Prop :=
| suf_nil : forall T, suf T [] T
| suf_fun : forall T us ps, is_fun T = false -> is_arr T = false -> P_prms us ps ->
    suf T (TP "(" :: us ++ [TP ")"]) (CFun ps T)
| suf_arr : forall T us q n vs T0, is_fun T = false -> fb us q n -> arrs T vs T0 ->
    suf T (us ++ vs) (CArr q n T0).

Lemma arrs_snoc T us n : P_bound us n -> forall vs T0, arrs (CArr noq n T) vs T0 ->
  arrs T (vs ++ TP "[" :: us ++ [TP "]"]) T0.
Proof.
  intros B vs T0 A. remember (CArr noq n T) as T1 eqn:E. induction A as [T1 | T1 ws m vs T0 B' A IH].
  - subst T1. cbn [app]. apply arrs_cons; [exact B | apply arrs_nil].
  - cbn [app]. rewrite <- app_assoc. cbn [app]. apply arrs_cons; [exact B' | apply IH; exact E].
Qed.
Lemma suf_snoc_arr T us n vs T1 : is_fun T = false -> P_bound us n -> suf (CArr noq n T) vs T1 ->
  suf T (vs ++ TP "[" :: us ++ [TP "]"]) T1.
Proof.
  intros F B H. inversion H as [T2 | T2 ws ps F2 A2 P2 | T2 ws q m vs2 T0 F2 FB A]; subst.
  - cbn [app]. rewrite <- (app_nil_r (TP "[" :: us ++ [TP "]"])). apply suf_arr; [exact F | | apply arrs_nil].
    apply (fb_q [] us n B).
  - discriminate A2.
  - rewrite <- app_assoc. apply suf_arr; [exact F | exact FB | apply arrs_snoc with (n := n); assumption].
Qed.
Lemma suf_snoc_fun T us ps vs T1 : is_fun T = false -> is_arr T = false -> P_prms us ps -> suf (CFun ps T) vs T1 ->
  suf T (vs ++ TP "(" :: us ++ [TP ")"]) T1.
Proof.
  intros F A P H. inversion H as [T2 | T2 ws ps2 F2 A2 P2 | T2 ws q m vs2 T0 F2 FB A2]; subst.
  - apply suf_fun; assumption.
  - discriminate F2.
  - discriminate F2.
Qed.
Lemma arrs_depth T us T1 : arrs T us T1 -> cdepth T <= cdepth T1.
Proof. induction 1; cbn [cdepth]; lia. Qed.
Lemma suf_depth T us T1 : suf T us T1 -> us = [] \/ cdepth T < cdepth T1.
Proof.
  intros H. destruct H as [T | T us ps F A P | T us q n vs T0 F FB A].
  - left. reflexivity.
  - right. cbn [cdepth]. lia.
  - right. apply arrs_depth in A. cbn [cdepth]. lia.
Qed.
Lemma suf_depth_le T us T1 : suf T us T1 -> cdepth T <= cdepth T1.
Proof.
  intros H. destruct H as [T | T us ps F A P | T us q n vs T0 F FB A]; cbn [cdepth]; try lia.
  apply arrs_depth in A. lia.
Qed.

(** type_suffix. *)
Lemma arrs_cont T vs T0 rest : arrs T vs T0 -> decl_end rest -> cont T (vs ++ rest) T0 rest.
Proof.
  intros A E. induction A as [T | T us n vs T0 [_ B] A IH].
  - left. cbn [app]. rewrite (end_punct "[" rest E) by reflexivity. auto.
  - right. exists (us ++ TP "]" :: vs ++ rest). split.
    + cbn [app]. rewrite <- app_assoc. reflexivity.
    + apply B. exact IH.
Qed.
Lemma suf_head T us T1 rest : suf T us T1 -> decl_end rest ->
  match us ++ rest with TP s :: _ => s <> "*" | TId _ :: _ => False | _ => True end.
Proof.
  intros H E. destruct H as [T | T us ps F A P | T us q n vs T0 F FB A].
  - cbn [app]. destruct rest as [|[s| | | | |] r]; auto. intros ->. discriminate E.
  - cbn [app]. discriminate.
  - destruct FB; cbn [app]; discriminate.
Qed.
Lemma qset_nil qs : qs = [] -> qset qs = noq.
Proof. intros ->. reflexivity. Qed.
Lemma no_td r : match r with TD _ :: _ => False | _ => True end -> no_qual r.
Proof. destruct r as [|[| |[]| | |] r]; cbn; auto. Qed.
Lemma suf_ok T us T1 rest : suf T us T1 -> decl_end rest -> ev (fun f => p_suffix f T (us ++ rest)) (T1, rest).
Proof.
  intros H E. destruct H as [T | T us ps F A P | T us q n vs T0 F FB A].
  - exists 1. intros [|f] L; [lia|]. rewrite type_suffix_S. cbn [app].
    rewrite !(end_punct _ rest E) by reflexivity. reflexivity.
  - destruct (P rest) as [_ P2]. destruct (P2 T) as [N E1]. exists (S N). intros [|f] L; [lia|].
    rewrite type_suffix_S. cbn [app punct String.eqb Ascii.eqb Bool.eqb]. rewrite <- app_assoc. apply E1. lia.
  - destruct FB as [qs us n [NT B] | qs us n [NT B]];
      destruct (B T (vs ++ rest) T0 rest (arrs_cont _ _ _ _ A E)) as [N E1];
      exists (S N); (intros [|f] L; [lia|]);
      rewrite type_suffix_S, <- app_assoc; cbn [app punct String.eqb Ascii.eqb Bool.eqb];
      rewrite <- !app_assoc; cbn [app]; rewrite <- ?app_assoc; cbn [app].
    + assert (PQ : pointer_qualifiers noq (qwords qs ++ us ++ TP "]" :: vs ++ rest) = (qset qs, us ++ TP "]" :: vs ++ rest)).
      { rewrite pquals_ok by (apply no_td, NT). rewrite noq_l. reflexivity. }
      specialize (NT (vs ++ rest)). specialize (E1 f ltac:(lia)). cbv beta in E1.
      destruct qs as [|k qs].
      * cbn [qwords map app] in *. rewrite (qset_nil [] eq_refl).
        destruct (us ++ TP "]" :: vs ++ rest) as [|[] r]; try exact E1. contradiction NT.
      * rewrite PQ. change (qwords (k :: qs) ++ us ++ TP "]" :: vs ++ rest)
          with (TD (TQual k) :: qwords qs ++ us ++ TP "]" :: vs ++ rest). cbv beta iota.
        replace (match us ++ TP "]" :: vs ++ rest with TD (TStor SStatic) :: r => r | _ => us ++ TP "]" :: vs ++ rest end)
          with (us ++ TP "]" :: vs ++ rest).
        2: { destruct (us ++ TP "]" :: vs ++ rest) as [|[] r]; try reflexivity. contradiction NT. }
        rewrite E1. reflexivity.
    + assert (PQ : pointer_qualifiers noq (qwords qs ++ TD (TStor SStatic) :: us ++ TP "]" :: vs ++ rest)
                   = (qset qs, TD (TStor SStatic) :: us ++ TP "]" :: vs ++ rest)).
      { rewrite pquals_ok by exact Logic.I. rewrite noq_l. reflexivity. }
      specialize (E1 f ltac:(lia)). cbv beta in E1. rewrite PQ.
      destruct qs as [|k qs]; cbn [qwords map app]; cbv beta iota; rewrite E1; reflexivity.
Qed.

(** * Direct declarators *)
Definition core (k : bool) (T : ctype) (ts : list tok) (x : option string) (T' : ctype) : Prop :=
  (exists s, k = true /\ ts = [TId s] /\ x = Some s /\ T' = T) \/
  (k = false /\ ts = [] /\ x = None /\ T' = T) \/
  (exists t us, ts = TP "(" :: (t :: us) ++ [TP ")"] /\ word t = TStop /\ bal (t :: us) /\ dfirst k t = true /\
     P_decl k T (t :: us) x T').
Definition P_ddecl (k : bool) (T : ctype) (ts : list tok) (x : option string) (T' : ctype) : Prop :=
  exists c us T1, ts = c ++ us /\ core k T1 c x T' /\ suf T us T1.

Lemma core_depth k T ts x T' : core k T ts x T' -> cdepth T <= cdepth T'.
Proof.
  intros [(s & _ & _ & _ & ->) | [(_ & _ & _ & ->) | (t & us & _ & _ & _ & _ & H & _)]]; [lia | lia | exact H].
Qed.
Lemma case_dir k T ts x T' : P_ddecl k T ts x T' -> P_decl k T ts x T'.
Proof.
  intros (c & us & T1 & -> & C & SF). split.
  { apply core_depth in C. apply suf_depth_le in SF. lia. }
  intros nm rest KN E. destruct (suf_ok T us T1 rest SF E) as [N1 E1].
  destruct C as [(s & -> & -> & -> & ->) | [(-> & -> & -> & ->) | (t & vs & -> & W & B & DF & _ & H)]].
  - rewrite (KN eq_refl). exists (S N1). intros [|f] L; [lia|]. rewrite declarator_S. cbn [app].
    rewrite pointers_stop by exact Logic.I. cbn [punct]. rewrite E1 by lia. reflexivity.
  - cbn [app]. pose proof (suf_head T us T1 rest SF E) as SH.
    assert (PS : pointers T None (us ++ rest) = (T, us ++ rest)).
    { apply pointers_stop. destruct (us ++ rest) as [|[]]; auto. }
    destruct SF as [T | T us ps F A P | T us q n ws T0 F FB A].
    + exists (S N1). intros [|f] L; [lia|]. rewrite declarator_S, PS. cbn [app] in *.
      rewrite (end_punct "(" rest E) by reflexivity.
      replace (match rest with TId s :: r => if nm then (Some s, r) else (None, rest) | _ => (None, rest) end)
        with (@None string, rest) by (destruct rest as [|[]]; try reflexivity; contradiction SH).
      rewrite E1 by lia. reflexivity.
    + destruct (P rest) as [P1 P2]. destruct (P2 T) as [N2 E2]. exists (S N2). intros [|f] L; [lia|].
      rewrite declarator_S, PS. cbn [app punct String.eqb Ascii.eqb Bool.eqb]. rewrite <- app_assoc. cbn [app].
      rewrite P1. cbv iota. rewrite E2 by lia. reflexivity.
    + exists (S N1). intros [|f] L; [lia|]. rewrite declarator_S, PS.
      assert (PN : punct "(" ((us ++ ws) ++ rest) = None) by (destruct FB; reflexivity).
      rewrite PN.
      replace (match (us ++ ws) ++ rest with TId s :: r => if nm then (Some s, r) else (None, (us ++ ws) ++ rest) | _ => (None, (us ++ ws) ++ rest) end)
        with (@None string, (us ++ ws) ++ rest) by (destruct FB; reflexivity).
      rewrite E1 by lia. reflexivity.
  - destruct (H nm (TP ")" :: us ++ rest) KN eq_refl) as [N2 E2].
    exists (S (N1 + N2)). intros [|f] L; [lia|]. rewrite declarator_S.
    replace (((TP "(" :: (t :: vs) ++ [TP ")"]) ++ us) ++ rest) with (TP "(" :: (t :: vs) ++ TP ")" :: us ++ rest).
    2: { cbn [app]. rewrite <- !app_assoc. reflexivity. }
    rewrite pointers_stop by discriminate.
    replace (punct "(" (TP "(" :: (t :: vs) ++ TP ")" :: us ++ rest)) with (Some ((t :: vs) ++ TP ")" :: us ++ rest)) by reflexivity.
    cbv iota.
    assert (E0 : is_typename tdef ((t :: vs) ++ TP ")" :: us ++ rest)
             || match punct ")" ((t :: vs) ++ TP ")" :: us ++ rest) with Some _ => true | None => false end = false).
    { cbn [app is_typename]. rewrite W. cbn [orb]. destruct t as [s| | | | |]; try reflexivity.
      cbn [punct]. destruct (String.eqb ")" s) eqn:X; [|reflexivity]. apply String.eqb_eq in X. subst s. discriminate DF. }
    rewrite E0. cbv iota. rewrite (B 0 (TP ")" :: us ++ rest)).
    replace (skip_paren 0 (TP ")" :: us ++ rest)) with (POk (us ++ rest)) by reflexivity.
    cbn [pbind]. rewrite E1 by lia. cbn [pbind]. rewrite E2 by lia. reflexivity.
Qed.
Lemma case_ptr k T qs ts x T' : dhead k ts -> P_decl k (CPtr (qset qs) T) ts x T' ->
  P_decl k T (TP "*" :: qwords qs ++ ts) x T'.
Proof.
  intros HD [D H]. split; [cbn [cdepth] in D; lia|]. intros nm rest KN E.
  destruct (H nm rest KN E) as [N E1]. exists (S N). intros [|f] L; [lia|].
  rewrite <- (E1 (S f)) by lia. cbv beta. rewrite !declarator_S.
  replace ((TP "*" :: qwords qs ++ ts) ++ rest) with (TP "*" :: qwords qs ++ ts ++ rest)
    by (cbn [app]; rewrite <- app_assoc; reflexivity).
  rewrite pointers_star; [reflexivity|].
  destruct ts as [|t r].
  - cbn [app]. destruct rest as [|[| |[]| | |] r]; try exact Logic.I. contradiction E.
  - cbn [dhead] in HD. cbn [app]. destruct t as [| |d| | |]; try exact Logic.I. discriminate HD.
Qed.
Lemma case_dd_id T s : P_ddecl true T [TId s] (Some s) T.
Proof.
  exists [TId s], [], T. split; [reflexivity|]. split; [|apply suf_nil]. left. exists s. auto.
Qed.
Lemma case_dd_none T : P_ddecl false T [] None T.
Proof. exists [], [], T. split; [reflexivity|]. split; [|apply suf_nil]. right. left. auto. Qed.
Lemma case_dd_par k T t ts x T' : bal (t :: ts) -> dfirst k t = true -> P_decl k T (t :: ts) x T' -> word t = TStop ->
  P_ddecl k T (TP "(" :: (t :: ts) ++ [TP ")"]) x T'.
Proof.
  intros B D H W. exists (TP "(" :: (t :: ts) ++ [TP ")"]), [], T. split; [symmetry; apply app_nil_r|].
  split; [|apply suf_nil]. right. right. exists t, ts. auto.
Qed.
Lemma case_dd_arr k T ts x T' us n : is_fun T = false -> P_bound us n -> P_ddecl k (CArr noq n T) ts x T' ->
  P_ddecl k T (ts ++ TP "[" :: us ++ [TP "]"]) x T'.
Proof.
  intros F B (c & vs & T1 & -> & C & S). exists c, (vs ++ TP "[" :: us ++ [TP "]"]), T1.
  split; [symmetry; apply app_assoc|]. split; [exact C | apply suf_snoc_arr with (n := n); assumption].
Qed.
Lemma inner_nil k A ts x : P_ddecl k A ts x A -> core k A ts x A.
Proof.
  intros (c & vs & T1 & -> & C & S). destruct (suf_depth _ _ _ S) as [-> | D].
  - rewrite app_nil_r. inversion S; subst.
    + exact C.
    + match goal with H : _ ++ _ = [] |- _ => apply app_eq_nil in H; destruct H as [H _] end.
      match goal with H : fb _ _ _ |- _ => destruct H; discriminate end.
  - apply core_depth in C. lia.
Qed.
Lemma case_dd_first k T ts x q n us : is_fun T = false -> fb us q n -> P_ddecl k (CArr q n T) ts x (CArr q n T) ->
  P_ddecl k T (ts ++ us) x (CArr q n T).
Proof.
  intros F B H. exists ts, us, (CArr q n T). split; [reflexivity|]. split; [exact (inner_nil _ _ _ _ H)|].
  rewrite <- (app_nil_r us). apply suf_arr; [exact F | exact B | apply arrs_nil].
Qed.
Lemma case_dd_fun k T ts x T' us ps : is_fun T = false -> is_arr T = false -> P_prms us ps ->
  P_ddecl k (CFun ps T) ts x T' -> P_ddecl k T (ts ++ TP "(" :: us ++ [TP ")"]) x T'.
Proof.
  intros F A P (c & vs & T1 & -> & C & S). exists c, (vs ++ TP "(" :: us ++ [TP ")"]), T1.
  split; [symmetry; apply app_assoc|]. split; [exact C | apply suf_snoc_fun with (ps := ps); assumption].
Qed.

(** * Bounds *)
Lemma dims_end n T R T0 rest (P : nat -> list tok -> pres (ctype * list tok)) :
  cont T R T0 rest ->
  exists N, forall f, N <= f ->
    match punct "[" R with
    | Some r => pdo (T, r) <- p_dims f T r; POk (CArr noq n T, r)
    | None => POk (CArr noq n T, R)
    end = POk (CArr noq n T0, rest).
Proof.
  intros [(-> & -> & ->) | (r & -> & N & E)].
  - exists 0. reflexivity.
  - exists N. intros f L. rewrite E by lia. reflexivity.
Qed.
Lemma case_bound0 : P_bound [] None.
Proof.
  split; [intros r; exact Logic.I|]. intros T R T0 rest C.
  destruct (dims_end None T R T0 rest (fun _ _ => PFuel) C) as [N E]. exists (S N). intros [|f] L; [lia|].
  rewrite array_dimensions_S. cbn [app punct String.eqb Ascii.eqb Bool.eqb]. apply E. lia.
Qed.
Lemma case_bound_star : P_bound [TP "*"] None.
Proof.
  split; [intros r; exact Logic.I|]. intros T R T0 rest C.
  destruct (dims_end None T R T0 rest (fun _ _ => PFuel) C) as [N E]. exists (S N). intros [|f] L; [lia|].
  rewrite array_dimensions_S. cbn [app punct String.eqb Ascii.eqb Bool.eqb]. apply E. lia.
Qed.
Lemma case_bound_e ts a : head_ok false ts -> P_ex Asg ts a -> P_bound ts (Some a).
Proof.
  intros HD H. split.
  { intros r. destruct ts as [|t ts]; [contradiction HD|]. apply head_first in HD. destruct t; try exact Logic.I. discriminate HD. }
  intros T R T0 rest C. destruct (H (TP "]" :: R)) as [N1 E1]; [cbn; lia|].
  destruct (dims_end (Some a) T R T0 rest (fun _ _ => PFuel) C) as [N E]. exists (S (N + N1)). intros [|f] L; [lia|].
  rewrite array_dimensions_S.
  assert (X : match punct "]" (ts ++ TP "]" :: R) with
              | Some r => Some r
              | None => match punct "*" (ts ++ TP "]" :: R) with Some r => punct "]" r | None => None end
              end = None).
  { rewrite (head_punct _ _ "]" _ _ HD) by reflexivity.
    destruct ts as [|t ts]; [contradiction HD|]. cbn [app]. destruct t as [s| | | | |]; try reflexivity.
    cbn [punct]. destruct (String.eqb "*" s) eqn:X; [|reflexivity]. apply String.eqb_eq in X. subst s.
    destruct HD as [_ [HD _]]. specialize (HD eq_refl). destruct ts as [|u ts]; [contradiction HD|].
    cbn [app]. apply (first_punct tdef); [exact HD | reflexivity]. }
  rewrite X, E1 by lia. cbn [pbind skip punct String.eqb Ascii.eqb Bool.eqb]. apply E. lia.
Qed.

(** * Parameters *)
Lemma case_prms0 : P_prms [] (if c23 then Some ([], false) else None).
Proof. intros rest. split; [reflexivity|]. intros T. exists 1. intros [|f] L; [lia|]. reflexivity. Qed.
Lemma case_prms_void : P_prms [TD (TKw KVoid)] (Some ([], false)).
Proof. intros rest. split; [reflexivity|]. intros T. exists 1. intros [|f] L; [lia|]. reflexivity. Qed.
Lemma p_head_facts ts r : p_head ts -> is_typename tdef (ts ++ r) = true /\ (forall s, punct s (ts ++ r) = None).
Proof.
  destruct ts as [|t ts]; [contradiction|]. cbn [p_head app is_typename]. intros H.
  split; [destruct (word t); congruence|]. intros s. destruct t; try reflexivity. cbn in H. congruence.
Qed.
Lemma void_test ts r : ~ void_only ts -> match ts ++ r with TD (TKw KVoid) :: r => punct ")" r | _ => None end = None \/ ts = [].
Proof.
  intros V. destruct ts as [|t ts]; [right; reflexivity|]. left. cbn [app].
  destruct t as [| |d| | |]; try reflexivity. destruct d as [k| | | | | | | | | | |]; try reflexivity. destruct k; try reflexivity.
  destruct ts as [|u ts]; [exfalso; apply V; exact Logic.I|]. cbn [app]. destruct u as [s| | | | |]; try reflexivity.
  cbn [punct]. destruct (String.eqb ")" s) eqn:X; [|reflexivity]. apply String.eqb_eq in X. subst s.
  exfalso. apply V. reflexivity.
Qed.
Lemma case_prms (v : bool) ts l : P_plist ts l ->
  P_prms (ts ++ (if v then [TP ","; TP "..."] else [])) (Some (l, v)).
Proof.
  intros (HD & V & H) rest.
  set (e := if v then TP "," :: TP "..." :: TP ")" :: rest else TP ")" :: rest).
  assert (EQ : (ts ++ (if v then [TP ","; TP "..."] else [])) ++ TP ")" :: rest = ts ++ e).
  { unfold e. destruct v; rewrite <- app_assoc; reflexivity. }
  rewrite EQ. destruct (p_head_facts ts e HD) as [IT PN]. split; [rewrite IT; reflexivity|].
  intros T. destruct (H v rest) as [[N E] _]. fold e in E. exists (S N). intros [|f] L; [lia|].
  rewrite func_params_S. rewrite !PN, IT. cbv iota.
  destruct (void_test ts e V) as [-> | ->]; [|contradiction HD].
  rewrite E by lia. reflexivity.
Qed.
Lemma case_plist1 ts p : P_parm ts p -> P_plist ts [p].
Proof.
  intros (HD & V & H). split; [exact HD|]. split; [exact V|]. intros v rest e.
  assert (DE : decl_end e) by (unfold e; destruct v; reflexivity).
  destruct (H e DE) as (t & r & T & DS & [N E] & AD).
  assert (E0 : forall f, 1 <= f -> p_params f false e = POk ([], v, rest)).
  { intros [|f] L; [lia|]. unfold e. destruct v; reflexivity. }
  destruct (p_head_facts ts e HD) as [IT PN]. destruct p as [x T']. cbn [fst snd] in *. subst T'.
  split; exists (S (S N)); (intros [|f] L; [lia|]); rewrite params_S.
  - rewrite !PN. cbn [pbind]. rewrite PN, DS. cbn [pbind]. rewrite E by lia. cbn [pbind]. rewrite E0 by lia. reflexivity.
  - cbn [skip punct String.eqb Ascii.eqb Bool.eqb pbind]. rewrite PN, DS. cbn [pbind].
    rewrite E by lia. cbn [pbind]. rewrite E0 by lia. reflexivity.
Qed.
Lemma case_plist2 ts p us l : P_parm ts p -> P_plist us l -> P_plist (ts ++ TP "," :: us) (p :: l).
Proof.
  intros (HD & V & H) (_ & _ & H2). split; [destruct ts; [contradiction HD | exact HD]|].
  split.
  { intros X. apply V. destruct ts as [|t ts]; [contradiction HD|]. cbn [app void_only] in *.
    destruct t as [| |d| | |]; try contradiction X. destruct d as [k| | | | | | | | | | |]; try contradiction X. destruct k; try contradiction X.
    destruct ts as [|u ts]; [exact Logic.I | exact X]. }
  intros v rest e. rewrite <- app_assoc. cbn [app].
  destruct (H2 v rest) as [_ [N2 E2]]. fold e in E2.
  destruct (H (TP "," :: us ++ e) eq_refl) as (t & r & T & DS & [N E] & AD).
  destruct (p_head_facts ts (TP "," :: us ++ e) HD) as [IT PN]. destruct p as [x T']. cbn [fst snd] in *. subst T'.
  split; exists (S (N + N2)); (intros [|f] L; [lia|]); rewrite params_S.
  - rewrite !PN. cbn [pbind]. rewrite PN, DS. cbn [pbind]. rewrite E by lia. cbn [pbind]. rewrite E2 by lia. reflexivity.
  - cbn [skip punct String.eqb Ascii.eqb Bool.eqb pbind]. rewrite PN, DS. cbn [pbind].
    rewrite E by lia. cbn [pbind]. rewrite E2 by lia. reflexivity.
Qed.

(** Specifiers before a declarator. *)
Lemma spec_end_ok k us rest : dhead k us -> decl_end rest -> spec_end tdef (us ++ rest).
Proof.
  intros HD E. destruct us as [|t us].
  - cbn [app]. destruct rest as [|[]]; try exact Logic.I; contradiction E.
  - cbn [app dhead spec_end] in *. destruct t; try exact Logic.I; [discriminate HD|]. cbn. destruct (tdef s); exact Logic.I.
Qed.
Lemma specs_head ts t us : specs tdef ts t -> p_head (ts ++ us).
Proof.
  intros H. destruct (specs_words tdef _ _ H) as [F N]. destruct ts as [|x ts]; [congruence|]. inversion F. assumption.
Qed.
Lemma decl_nil k T x T' ts : decl tdef c23 false k T ts x T' -> ts = [] -> T' = T.
Proof.
  intros H E. destruct H as [k T ts x T' H | ]; [|discriminate E].
  destruct H; try reflexivity; try discriminate E; destruct ts; discriminate E.
Qed.
Lemma specs_void t : specs tdef [TD (TKw KVoid)] t -> is_void (CBase t) = true.
Proof.
  intros H. inversion H as [ts b F NS SO D | ts us x t0 W NT NS Q]; subst.
  - assert (DV : denotes [KVoid] BVoid).
    { exists [KVoid]. split; [cbn; tauto | apply Permutation.Permutation_refl]. }
    cbn in D. rewrite (denotes_one _ _ _ D DV). reflexivity.
  - destruct ts as [|y ts]; [|destruct ts; discriminate]. destruct us; [|discriminate].
    match goal with E : [] ++ _ = _ |- _ => injection E as -> end. destruct W as [W | W]; discriminate W.
Qed.
Lemma case_parm k ts t us x T' : specs tdef ts t -> decl tdef c23 false k (CBase t) us x T' ->
  P_decl k (CBase t) us x T' -> is_void T' = false -> P_parm (ts ++ us) (x, adjusted T').
Proof.
  intros SP D [_ H] V. split; [exact (specs_head _ _ _ SP)|]. split.
  - intros X. destruct (specs_words tdef _ _ SP) as [F N]. destruct ts as [|y ts]; [congruence|].
    cbn [app void_only] in X. destruct y as [| |d| | |]; try contradiction X. destruct d as [kw| | | | | | | | | | |]; try contradiction X. destruct kw; try contradiction X.
    destruct ts as [|u ts].
    + destruct us as [|u us].
      * rewrite (decl_nil _ _ _ _ _ D eq_refl), (specs_void _ SP) in V. discriminate V.
      * cbn [app] in X. subst u. apply decl_head in D. discriminate D.
    + cbn [app] in X. subst u. inversion F as [|? ? _ F2]; subst. inversion F2 as [|? ? F3 _]; subst. apply F3. reflexivity.
  - intros rest E. exists t, (us ++ rest), T'. rewrite <- app_assoc.
    rewrite (dspec_ok tdef c23 auty ts t (us ++ rest) SP (spec_end_ok k us rest (decl_head _ _ _ _ _ _ _ _ D) E)).
    split; [reflexivity|]. split; [apply H; [reflexivity | exact E]|].
    cbn [snd]. destruct T'; reflexivity.
Qed.
Lemma case_tyname ts t us T' : specs tdef ts t -> decl tdef c23 false false (CBase t) us None T' ->
  P_decl false (CBase t) us None T' -> P_ty tdef c23 auty (ts ++ us) T'.
Proof.
  intros SP D [_ H] rest. assert (E : decl_end (TP ")" :: rest)) by reflexivity.
  destruct (H false (TP ")" :: rest) ltac:(discriminate) E) as [N E1]. exists (S N). intros [|f] L; [lia|].
  rewrite typename_S, <- app_assoc.
  rewrite (dspec_ok tdef c23 auty ts t _ SP (spec_end_ok false us _ (decl_head _ _ _ _ _ _ _ _ D) E)).
  cbn [pbind]. rewrite E1 by lia. reflexivity.
Qed.

(** * Everything *)
Lemma all_ok :
  (forall n ts a, ex tdef c23 false n ts a -> P_ex n ts a) /\
  (forall ts l, args tdef c23 false ts l -> P_args tdef c23 auty ts l) /\
  (forall ts t, tyname tdef c23 false ts t -> P_ty tdef c23 auty ts t /\ ty_text tdef ts) /\
  (forall k T ts x T', decl tdef c23 false k T ts x T' -> P_decl k T ts x T') /\
  (forall k T ts x T', ddecl tdef c23 false k T ts x T' -> P_ddecl k T ts x T') /\
  (forall ts n, bound tdef c23 false ts n -> P_bound ts n) /\
  (forall ts p, prms tdef c23 false ts p -> P_prms ts p) /\
  (forall ts l, plist tdef c23 false ts l -> P_plist ts l) /\
  (forall ts p, parm tdef c23 false ts p -> P_parm ts p).
Proof.
  pose proof (ex_head tdef c23 false) as HD.
  destruct (text_bal tdef c23 false) as (_ & _ & BT & BD & _).
  apply (phrase_ind tdef c23 false P_ex (P_args tdef c23 auty)
    (fun ts t => P_ty tdef c23 auty ts t /\ ty_text tdef ts) P_decl P_ddecl P_bound P_prms P_plist P_parm); intros.
  - apply case_id. assumption.
  - apply case_num.
  - apply case_str.
  - apply case_par; [exact (HD _ _ _ H) | assumption].
  - apply case_post; [exact (HD _ _ _ H) | assumption].
  - apply case_index; assumption.
  - apply case_call; assumption.
  - apply case_dot; assumption.
  - apply case_arrow; assumption.
  - apply case_inc; assumption.
  - apply case_dec; assumption.
  - apply case_unary; assumption.
  - apply (case_pre tdef c23 auty true); assumption.
  - apply (case_pre tdef c23 auty false); assumption.
  - apply case_un; assumption.
  - apply (case_size tdef c23 auty "sizeof" ESizeofE ESizeofT); [auto | exact (HD _ _ _ H) | assumption].
  - apply (case_size tdef c23 auty "sizeof" ESizeofE ESizeofT); [auto | apply H0 | apply H0].
  - apply (case_size tdef c23 auty "_Alignof" EAlignE EAlignT); [auto | exact (HD _ _ _ H) | assumption].
  - apply (case_size tdef c23 auty "_Alignof" EAlignE EAlignT); [auto | apply H0 | apply H0].
  - apply case_label.
  - apply case_cast0; [exact (HD _ _ _ H) | assumption].
  - apply case_cast; [apply H0 | apply H0 | exact (HD _ _ _ H1) | assumption].
  - apply case_opnd with (m := m); assumption.
  - apply case_bin with (m := m); assumption.
  - apply case_cond0; assumption.
  - apply case_cond; try assumption. exact (HD _ _ _ H1).
  - apply case_elvis; assumption.
  - apply case_asg0; assumption.
  - apply case_asg; try assumption. exact (HD _ _ _ H0).
  - apply case_expr0; assumption.
  - apply case_comma; assumption.
  - discriminate.
  - discriminate.
  - discriminate.
  - apply case_args0.
  - apply case_args1; [exact (HD _ _ _ H) | assumption].
  - apply case_args2; [exact (HD _ _ _ H) | assumption | assumption].
  - split; [eapply case_tyname; eassumption|]. split.
    + apply bal_app; [apply (bal_word tdef); exact (proj1 (specs_words tdef _ _ H)) | exact (BD _ _ _ _ _ H0)].
    + pose proof (specs_head _ _ us H) as X. destruct (ts ++ us); exact X.
  - apply case_dir. assumption.
  - apply case_ptr; [exact (decl_head _ _ _ _ _ _ _ _ H) | assumption].
  - apply case_dd_id.
  - apply case_dd_none.
  - apply case_dd_par; [exact (BD _ _ _ _ _ H) | exact (decl_head _ _ _ _ _ _ _ _ H) | assumption | assumption].
  - apply case_dd_arr with (n := n); assumption.
  - apply case_dd_first; [assumption | apply fb_q; assumption | assumption].
  - apply case_dd_first; [assumption | | assumption].
    apply fb_s. apply case_bound_e; [exact (HD _ _ _ H0) | assumption].
  - apply case_dd_fun with (ps := ps); assumption.
  - apply case_bound0.
  - apply case_bound_star.
  - apply case_bound_e; [exact (HD _ _ _ H) | assumption].
  - apply case_prms0.
  - apply case_prms_void.
  - rewrite <- (app_nil_r ts). apply (case_prms false). assumption.
  - apply (case_prms true). assumption.
  - apply case_plist1; assumption.
  - apply case_plist2; assumption.
  - eapply case_parm; eassumption.
Qed.
End Decls.
