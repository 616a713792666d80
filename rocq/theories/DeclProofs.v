(** Proofs about declaration specifiers. *)
From Coq Require Import ZArith List Bool Lia Permutation.
From Verif Require Import Base DeclSpec DeclModel.
Import ListNotations.
Local Open Scope Z_scope.

Definition all_kws : list kw :=
  [KVoid; KBool; KChar; KShort; KInt; KLong; KFloat; KDouble; KSigned; KUnsigned].
Lemma all_kws_in k : In k all_kws.
Proof. destruct k; cbn; tauto. Qed.

(** Permutations of keyword lists are decided by counting. *)
Definition permb (a b : list kw) : bool :=
  forallb (fun k => Nat.eqb (count_occ kw_eq_dec a k) (count_occ kw_eq_dec b k)) all_kws.
Lemma permb_spec a b : permb a b = true <-> Permutation a b.
Proof.
  rewrite (Permutation_count_occ kw_eq_dec). unfold permb. rewrite forallb_forall. split.
  - intros H x. apply Nat.eqb_eq, H, all_kws_in.
  - intros H x _. apply Nat.eqb_eq, H.
Qed.
Definition bty_eq_dec : forall a b : bty, {a = b} + {a <> b}.
Proof. decide equality. Defined.
Definition beqb a b := if bty_eq_dec a b then true else false.
Lemma beqb_spec a b : beqb a b = true <-> a = b.
Proof. unfold beqb. destruct (bty_eq_dec a b); intuition congruence. Qed.

(** The counter after some keywords. *)
Definition enc (ks : list kw) : Z := fold_right (fun k n => weight k + n) 0 ks.
Lemma enc_perm a b : Permutation a b -> enc a = enc b.
Proof. induction 1; cbn [enc fold_right] in *; unfold enc in *; lia. Qed.

Lemma enc_pos ks : ks <> [] -> 0 < enc ks.
Proof.
  assert (W : forall k, 0 < weight k) by (intros []; reflexivity).
  assert (N : forall l, 0 <= enc l) by (induction l as [|k l IH]; cbn [enc fold_right]; [lia|specialize (W k); unfold enc in IH; lia]).
  destruct ks as [|k l]; [congruence|]. intros _. cbn [enc fold_right]. specialize (W k). specialize (N l). unfold enc in N. lia.
Qed.

Definition is_sign (k : kw) : bool := match k with KSigned | KUnsigned => true | _ => false end.
Definition has (k : kw) (r : list kw) : bool := negb (Nat.eqb (count_occ kw_eq_dec r k) 0).

(** One keyword more: all rows and all keywords. *)
Definition check1 (row : list kw) (k : kw) : bool :=
  (is_sign k && has k row) ||
  (add_kw (enc row) k =? weight k + enc row) &&
  match switch cases (add_kw (enc row) k) with
  | Some b => existsb (fun p => permb (k :: row) (fst p) && beqb b (snd p)) table
  | None => forallb (fun p => negb (permb (k :: row) (fst p))) table
  end.
Lemma check1_all : forallb (fun row => forallb (check1 row) all_kws) ([] :: map fst table) = true.
Proof. vm_compute. reflexivity. Qed.

Definition settled (ks : list kw) (t : option bty) : Prop :=
  match t with None => ks = [] | Some b => denotes ks b end.

Lemma one_more ks t k : settled ks t -> (is_sign k = true -> count_occ kw_eq_dec ks k = O) ->
  add_kw (enc ks) k = enc (k :: ks) /\
  match switch cases (add_kw (enc ks) k) with
  | Some b => denotes (k :: ks) b
  | None => forall b, ~ denotes (k :: ks) b
  end.
Proof.
  intros ST SG.
  assert (K : exists row, In row ([] :: map fst table) /\ Permutation ks row).
  { destruct t as [b|]; cbn [settled] in ST.
    - destruct ST as (row & IN & P). exists row. split; [right|exact P].
      change row with (fst (row, b)). now apply in_map.
    - subst. exists []. split; [now left|constructor]. }
  destruct K as (row & IN & P).
  pose proof check1_all as CH. rewrite forallb_forall in CH. specialize (CH row IN).
  rewrite forallb_forall in CH. specialize (CH k (all_kws_in k)). unfold check1 in CH.
  rewrite <- (enc_perm _ _ P) in CH. apply orb_true_iff in CH. destruct CH as [CH|CH].
  { apply andb_true_iff in CH. destruct CH as [S1 H1]. specialize (SG S1). unfold has in H1.
    rewrite (Permutation_count_occ kw_eq_dec) in P. rewrite <- P, SG in H1. discriminate. }
  apply andb_true_iff in CH. destruct CH as [E C]. apply Z.eqb_eq in E. split; [exact E|].
  destruct (switch cases (add_kw (enc ks) k)) as [b|].
  - apply existsb_exists in C. destruct C as ([row' b'] & IN' & C). cbn [fst snd] in C.
    apply andb_true_iff in C. destruct C as [C B]. apply beqb_spec in B. subst b'. apply permb_spec in C.
    exists row'. split; [exact IN'|]. eapply perm_trans; [apply perm_skip; exact P|exact C].
  - rewrite forallb_forall in C. intros b (row' & IN' & P'). specialize (C (row', b) IN'). cbn [fst] in C.
    assert (X : permb (k :: row) row' = true); [|rewrite X in C; discriminate].
    apply permb_spec. eapply perm_trans; [apply perm_skip, Permutation_sym; exact P|exact P'].
Qed.

(** A row without one of its keywords is a row or empty. *)
Fixpoint without (k : kw) (l : list kw) : list kw :=
  match l with [] => [] | a :: r => if kw_eq_dec a k then r else a :: without k r end.
Lemma without_perm k l : In k l -> Permutation l (k :: without k l).
Proof.
  induction l as [|a r IH]; intros IN; [destruct IN|]. cbn [without]. destruct (kw_eq_dec a k) as [->|NE]; auto.
  destruct IN as [->|IN]; [congruence|]. eapply perm_trans; [apply perm_skip, IH, IN|constructor].
Qed.
Definition check2 (row : list kw) (k : kw) : bool :=
  negb (has k row) || match without k row with [] => true | w => existsb (fun p => permb w (fst p)) table end.
Lemma check2_all : forallb (fun row => forallb (check2 row) all_kws) (map fst table) = true.
Proof. vm_compute. reflexivity. Qed.

Lemma one_less k ks b : denotes (k :: ks) b -> ks = [] \/ exists b', denotes ks b'.
Proof.
  intros (row & IN & P). pose proof check2_all as CH. rewrite forallb_forall in CH.
  specialize (CH row (in_map fst _ _ IN)). rewrite forallb_forall in CH. specialize (CH k (all_kws_in k)).
  unfold check2 in CH.
  assert (INK : In k row) by (eapply Permutation_in; [exact P|now left]).
  assert (H : has k row = true).
  { unfold has. apply negb_true_iff, Nat.eqb_neq. apply (count_occ_In kw_eq_dec) in INK. lia. }
  rewrite H in CH. cbn [negb orb] in CH.
  assert (PW : Permutation ks (without k row)).
  { apply (Permutation_cons_inv (a := k)). eapply perm_trans; [exact P|apply without_perm, INK]. }
  destruct (without k row) as [|w ws] eqn:W.
  - left. apply Permutation_nil, Permutation_sym, PW.
  - right. apply existsb_exists in CH. destruct CH as ([row' b'] & IN' & C). apply permb_spec in C.
    exists b', row'. split; [exact IN'|]. eapply perm_trans; eauto.
Qed.
Lemma fewer xs ks b : denotes (xs ++ ks) b -> ks = [] \/ exists b', denotes ks b'.
Proof.
  revert b. induction xs as [|x xs IH]; intros b D; cbn [app] in D; [eauto|].
  apply one_less in D. destruct D as [E|(b' & D)]; [left; apply app_eq_nil in E; tauto|eauto].
Qed.

(** A list denotes one type only. *)
Definition check3 (p q : list kw * bty) : bool := negb (permb (fst p) (fst q)) || beqb (snd p) (snd q).
Lemma check3_all : forallb (fun p => forallb (check3 p) table) table = true.
Proof. vm_compute. reflexivity. Qed.
Lemma denotes_one ks b b' : denotes ks b -> denotes ks b' -> b = b'.
Proof.
  intros (r & IN & P) (r' & IN' & P'). pose proof check3_all as CH. rewrite forallb_forall in CH.
  specialize (CH _ IN). rewrite forallb_forall in CH. specialize (CH _ IN'). unfold check3 in CH. cbn [fst snd] in CH.
  assert (X : permb r r' = true) by (apply permb_spec; eapply perm_trans; [apply Permutation_sym; exact P|exact P']).
  rewrite X in CH. now apply beqb_spec.
Qed.
Lemma denotes_perm ks ks' b : Permutation ks ks' -> denotes ks b -> denotes ks' b.
Proof. intros P (r & IN & Q). exists r. split; auto. eapply perm_trans; [apply Permutation_sym|]; eauto. Qed.

Lemma switch_case c b : switch cases c = Some b -> c <> 0.
Proof. intros H ->. vm_compute in H. discriminate. Qed.

(** ** The loop *)
Section Loop.
Variables (c23 auty : bool) (inferred : outcome dtype).
Notation run := (specifiers AnyAttr c23 auty).

Definition attr_ok (a : vattr) : Prop :=
  atypedef a = true -> astatic a = false /\ aextern a = false /\ ainline a = false /\ atls a = false.
Definition opt_ty (t : option bty) : option dtype :=
  match t with None => None | Some b => Some (mkt (Basic b) noq) end.

Lemma union_q_assoc a b c : union_q a (union_q b c) = union_q (union_q a b) c.
Proof. unfold union_q. cbn. now rewrite !orb_assoc. Qed.
Lemma union_q_comm a b : union_q a b = union_q b a.
Proof. unfold union_q. f_equal; apply orb_comm. Qed.
Lemma set_q_union q k : set_q q k = union_q (q_of (TQual k)) q.
Proof. destruct q as [a b c d], k; reflexivity. Qed.
Lemma noq_l q : union_q noq q = q.
Proof. now destruct q. Qed.

Lemma attr_of_nil a : attr_of [] a = a.
Proof. now destruct a. Qed.
Lemma attr_of_stor s l a : attr_of (TStor s :: l) a = attr_of l (set_stor a s).
Proof.
  unfold attr_of. destruct a as [a1 a2 a3 a4 a5 a6 a7 a8], s; cbn [stored_in existsb stor_eqb set_stor atypedef astatic aextern ainline atls aconstexpr aregister aalign orb];
    f_equal; rewrite ?orb_true_r; reflexivity.
Qed.
Lemma attr_of_skip t l a : (forall s, t <> TStor s) -> attr_of (t :: l) a = attr_of l a.
Proof. intros H. unfold attr_of, stored_in. cbn [existsb]. destruct t; cbn [orb]; try reflexivity. now destruct (H s). Qed.
Lemma attr_ok_clash a : attr_ok a -> stor_clash a = false.
Proof.
  unfold attr_ok, stor_clash. destruct (atypedef a); cbn [andb]; auto. intros H.
  destruct (H eq_refl) as (-> & -> & -> & ->). reflexivity.
Qed.

(** Only the flags of [l] and [a] together matter. *)
Lemma attr_ok_stor s l a : attr_ok (attr_of (TStor s :: l) a) -> attr_ok (set_stor a s).
Proof.
  rewrite attr_of_stor. generalize (set_stor a s). clear. intros a. unfold attr_ok, attr_of.
  cbn [atypedef astatic aextern ainline atls]. intros H E. rewrite E, orb_true_r in H.
  destruct (H eq_refl) as (A & B & C & D). apply orb_false_iff in A, B, C, D. tauto.
Qed.

Lemma loop_ok rest : forall l done t q a,
  Forall plain l -> stops (kws l ++ done) rest ->
  settled done t ->
  (forall k, is_sign k = true -> count_occ kw_eq_dec (kws l ++ done) k <= 1)%nat ->
  attr_ok (attr_of l a) ->
  match run (l ++ rest) false (mkdst (opt_ty t) (enc done) q false a) with
  | Ok (s, r) => r = rest /\ dq s = union_q (quals_in l) q /\ dauto s = false /\ dattr s = attr_of l a /\
      exists t', dty s = opt_ty t' /\ settled (kws l ++ done) t' /\ counter s = enc (kws l ++ done)
  | UB => False
  | Abort => kws l ++ done <> [] /\ forall b, ~ denotes (kws l ++ done) b
  end.
Proof.
  induction l as [|tk l IH]; intros done t q a PL SP ST SG AT.
  - cbn [app kws flat_map quals_in fold_right]. 
    assert (E : run rest false (mkdst (opt_ty t) (enc done) q false a) = Ok (mkdst (opt_ty t) (enc done) q false a, rest)).
    { destruct rest as [|[] r]; try reflexivity; try (exfalso; exact SP).
      cbn [app kws flat_map stops] in SP. cbn [specifiers specifier counter dauto].
      pose proof (enc_pos done SP) as EP. destruct (Z.eqb_spec (enc done) 0); [lia|]. reflexivity. }
    rewrite E. cbn [dq dauto dattr dty counter]. rewrite attr_of_nil, noq_l. repeat split; auto. exists t. auto.
  - inversion PL as [|? ? P1 PL']; subst. cbn [app specifiers].
    destruct tk as [k| | |qq| |s| | | | | |]; try destruct P1.
    + (* keyword *)
      cbn [specifier counter].
      assert (SG0 : is_sign k = true -> count_occ kw_eq_dec done k = O).
      { intros Sk. specialize (SG k Sk). cbn [kws flat_map kw_of app] in SG. cbn [count_occ] in SG.
        destruct (kw_eq_dec k k); [|congruence]. rewrite count_occ_app in SG. lia. }
      destruct (one_more done t k ST SG0) as [E C]. fold cases.
      assert (PM : Permutation (kws (TKw k :: l) ++ done) (kws l ++ k :: done)).
      { cbn [kws flat_map kw_of app]. apply Permutation_middle. }
      destruct (switch cases (add_kw (enc done) k)) as [b|] eqn:SW.
      * cbn [bind]. unfold with_ty. cbn [dq dauto dattr]. rewrite E.
        assert (SG' : forall k', is_sign k' = true -> (count_occ kw_eq_dec (kws l ++ k :: done) k' <= 1)%nat).
        { intros k' Sk'. specialize (SG k' Sk'). rewrite (Permutation_count_occ kw_eq_dec) in PM. now rewrite <- PM. }
        assert (AT' : attr_ok (attr_of l a)) by (rewrite attr_of_skip in AT by discriminate; exact AT).
        assert (SP' : stops (kws l ++ k :: done) rest).
        { destruct rest as [|[] r]; auto. cbn [stops]. destruct (kws l); discriminate. }
        specialize (IH (k :: done) (Some b) q a PL' SP' C SG' AT'). cbn [opt_ty] in IH.
        destruct (run (l ++ rest) false (mkdst (Some (mkt (Basic b) noq)) (enc (k :: done)) q false a)) as [[s r]| |].
        -- destruct IH as (A & B & D & F & t' & G & HS & J).
           split; [exact A|]. split; [cbn [quals_in fold_right q_of]; rewrite noq_l; exact B|].
           split; [exact D|]. split; [rewrite attr_of_skip by discriminate; exact F|].
           {  exists t'. split; [exact G|]. split.
              ** destruct t'; cbn [settled] in *; [eapply denotes_perm; [apply Permutation_sym; exact PM|exact HS]|].
                 apply app_eq_nil in HS. destruct HS; discriminate.
              ** rewrite J. apply enc_perm, Permutation_sym, PM. }
        -- exact IH.
        -- destruct IH as [_ N]. split; [destruct (kws l); discriminate|]. intros b' D.
           apply (N b'). eapply denotes_perm; eauto.
      * cbn [bind]. split; [cbn; discriminate|]. intros b D.
        assert (D' : denotes (kws l ++ k :: done) b) by (eapply denotes_perm; eauto).
        apply fewer in D'. destruct D' as [D'|(b' & D')]; [discriminate|]. eapply C; eauto.
    + (* qualifier *)
      cbn [specifier bind]. unfold with_q. cbn [dty counter dauto dattr dq].
      rewrite attr_of_skip in * by discriminate.
      specialize (IH done t (set_q q qq) a PL' SP ST SG AT).
      destruct (run (l ++ rest) false _) as [[s r]| |]; auto.
      destruct IH as (A & B & D). split; [exact A|]. split; [|exact D]. rewrite B, set_q_union.
      cbn [quals_in fold_right]. rewrite union_q_assoc. f_equal. apply union_q_comm.
    + (* storage class *)
      cbn [dattr]. rewrite attr_ok_clash by (eapply attr_ok_stor; eauto).
      unfold with_attr. cbn [dty counter dauto dq]. rewrite attr_of_stor in *.
      specialize (IH done t q (set_stor a s) PL' SP ST SG AT).
      destruct (run (l ++ rest) false _) as [[s' r]| |]; exact IH.
    + (* _Noreturn *)
      cbn [specifier bind]. rewrite attr_of_skip in * by discriminate.
      specialize (IH done t q a PL' SP ST SG AT).
      destruct (run (l ++ rest) false _) as [[s' r]| |]; exact IH.
Qed.

(** Specifiers that name no type only add their flags. *)
Lemma quiet_ok rest : forall l s, Forall no_type l -> attr_ok (attr_of l (dattr s)) ->
  run (l ++ rest) false s =
  run rest false (mkdst (dty s) (counter s) (union_q (quals_in l) (dq s)) (dauto s) (attr_of l (dattr s))).
Proof.
  induction l as [|tk l IH]; intros s PL AT.
  - cbn [app quals_in fold_right]. rewrite noq_l, attr_of_nil. now destruct s.
  - inversion PL as [|? ? P1 PL']; subst. cbn [app].
    destruct tk as [k| | |qq| |k| | | | | |]; try destruct P1.
    + rewrite attr_of_skip in * by discriminate. cbn [specifiers specifier bind].
      rewrite IH by auto. unfold with_q. cbn [dty counter dq dauto dattr]. f_equal. f_equal.
      rewrite set_q_union. cbn [quals_in fold_right]. rewrite union_q_assoc. f_equal. apply union_q_comm.
    + cbn [specifiers]. rewrite attr_ok_clash by (eapply attr_ok_stor; eauto).
      rewrite attr_of_stor in *. rewrite IH by (exact AT || exact PL'). unfold with_attr. cbn [dty counter dq dauto dattr].
      cbn [quals_in fold_right q_of]. now rewrite noq_l.
    + rewrite attr_of_skip in * by discriminate. cbn [specifiers specifier bind].
      rewrite IH by auto. cbn [quals_in fold_right q_of]. now rewrite noq_l.
Qed.

Lemma attr_of_app l1 l2 a : attr_of l2 (attr_of l1 a) = attr_of (l1 ++ l2) a.
Proof.
  unfold attr_of, stored_in. rewrite !existsb_app.
  cbn [atypedef astatic aextern ainline atls aconstexpr aregister aalign].
  f_equal; rewrite orb_assoc; f_equal; apply orb_comm.
Qed.
Lemma quals_in_app l1 l2 : quals_in (l1 ++ l2) = union_q (quals_in l1) (quals_in l2).
Proof.
  induction l1 as [|t l IH]; cbn [app quals_in fold_right]; [now rewrite noq_l|].
  unfold quals_in in IH. rewrite IH. now rewrite union_q_assoc.
Qed.
Lemma attr_ok_app l1 l2 a : attr_ok (attr_of (l1 ++ l2) a) -> attr_ok (attr_of l1 a).
Proof.
  rewrite <- attr_of_app. generalize (attr_of l1 a). clear. intros a. unfold attr_ok, attr_of.
  cbn [atypedef astatic aextern ainline atls]. intros H E. rewrite E, orb_true_r in H.
  destruct (H eq_refl) as (A & B & C & D). apply orb_false_iff in A, B, C, D. tauto.
Qed.
Lemma storage_attr l : storage_ok l -> attr_ok (attr_of l no_attr).
Proof. unfold storage_ok, attr_ok, attr_of. cbn. now rewrite !orb_false_r. Qed.

Definition qany (q : quals) : bool := qatomic q || qconst q || qvolatile q || qrestrict q.
Lemma qany_noq q : qany q = false -> q = noq.
Proof. destruct q as [a b c d]. unfold qany. cbn. destruct a, b, c, d; try discriminate. reflexivity. Qed.

Theorem declspec_kw l rest : Forall plain l -> storage_ok l -> signs_once l -> kws l <> [] -> stops (kws l) rest ->
  match declspec AnyAttr c23 auty inferred (l ++ rest) with
  | Ok (t, a, r) => exists b, denotes (kws l) b /\ t = mkt (Basic b) (quals_in l) /\ a = attr_of l no_attr /\ r = rest
  | UB => False
  | Abort => forall b, ~ denotes (kws l) b
  end.
Proof.
  intros PL SO [S1 S2] NE SP. unfold declspec.
  pose proof (loop_ok rest l [] None noq no_attr PL) as H. rewrite app_nil_r in H.
  specialize (H SP eq_refl). cbn [opt_ty enc fold_right] in H.
  assert (SG : forall k, is_sign k = true -> (count_occ kw_eq_dec (kws l) k <= 1)%nat).
  { intros [] Hk; try discriminate; auto. }
  specialize (H SG (storage_attr l SO)).
  destruct (run (l ++ rest) false (mkdst None 0 noq false no_attr)) as [[s r]| |]; cbn [bind fst snd].
  - destruct H as (A & B & C & D & t' & F & G & J). unfold finish. rewrite F, B.
    assert (E : exists b, t' = Some b /\ denotes (kws l) b).
    { destruct t' as [b|]; [eauto|]. cbn [settled] in G. congruence. }
    destruct E as (b & -> & DN). cbn [opt_ty bind tbase].
    assert (U : union_q (quals_in l) noq = quals_in l) by (rewrite union_q_comm; apply noq_l). rewrite U.
    fold (qany (quals_in l)). destruct (qany (quals_in l)) eqn:Q; cbn [bind]; exists b; repeat split; auto.
    rewrite (qany_noq _ Q). reflexivity.
  - exact H.
  - apply H.
Qed.

(** A type that is not named by keywords, among other specifiers. *)
Theorem declspec_other l1 x t l2 rest : x = TTag t \/ x = TName t ->
  Forall no_type (l1 ++ l2) -> storage_ok (l1 ++ l2) -> stops [KInt] rest ->
  quals_in (l1 ++ l2) = noq \/ tquals t = noq ->
  declspec AnyAttr c23 auty inferred (l1 ++ x :: l2 ++ rest) =
  Ok (mkt (tbase t) (union_q (tquals t) (quals_in (l1 ++ l2))), attr_of (l1 ++ l2) no_attr, rest).
Proof.
  intros X PL SO SP Q. apply storage_attr in SO. apply Forall_app in PL. destruct PL as [P1 P2].
  unfold declspec. rewrite quiet_ok; [|exact P1|eapply attr_ok_app; exact SO].
  cbn [dty counter dq dauto dattr].
  assert (E : forall s, counter s = 0 -> dauto s = false ->
    run (x :: l2 ++ rest) false s = run (l2 ++ rest) false (with_ty s t OTHER)).
  { intros s C0 D0. destruct X as [-> | ->]; cbn [specifiers specifier]; rewrite C0, ?D0; reflexivity. }
  rewrite E by reflexivity. clear E. rewrite quiet_ok; [|exact P2|cbn [with_ty dattr]; rewrite attr_of_app; exact SO].
  cbn [with_ty dty counter dq dauto dattr].
  assert (E : forall s, counter s = OTHER -> run rest false s = Ok (s, rest)).
  { intros s C0. destruct rest as [|[] r]; try reflexivity; try (exfalso; exact SP).
    cbn [specifiers specifier]. rewrite C0. reflexivity. }
  rewrite E by reflexivity. clear E. cbn [bind fst snd dattr]. unfold finish. cbn [dty bind dq].
  rewrite attr_of_app.
  assert (U : union_q (quals_in l2) (union_q (quals_in l1) noq) = quals_in (l1 ++ l2)).
  { rewrite quals_in_app, (union_q_comm (quals_in l1) noq), noq_l. apply union_q_comm. }
  rewrite U. fold (qany (quals_in (l1 ++ l2))). destruct Q as [Q|Q].
  - rewrite Q. cbn [qany noq qatomic qconst qvolatile qrestrict orb bind]. rewrite union_q_comm, noq_l. now destruct t.
  - rewrite Q, noq_l. destruct (qany (quals_in (l1 ++ l2))) eqn:QA; cbn [bind]; auto.
    rewrite (qany_noq _ QA), <- Q. now destruct t.
Qed.

(** Two types: rejected. *)
Theorem declspec_two l1 x t l2 k rest : x = TTag t \/ x = TName t ->
  Forall no_type (l1 ++ l2) -> storage_ok (l1 ++ l2) ->
  declspec AnyAttr c23 auty inferred (l1 ++ x :: l2 ++ TKw k :: rest) = Abort.
Proof.
  intros X PL SO. apply storage_attr in SO. apply Forall_app in PL. destruct PL as [P1 P2].
  unfold declspec. rewrite quiet_ok; [|exact P1|eapply attr_ok_app; exact SO].
  cbn [dty counter dq dauto dattr].
  assert (E : forall s r, counter s = 0 -> dauto s = false ->
    run (x :: r) false s = run r false (with_ty s t OTHER)).
  { intros s r C0 D0. destruct X as [-> | ->]; cbn [specifiers specifier]; rewrite C0, ?D0; reflexivity. }
  rewrite E by reflexivity. clear E. rewrite quiet_ok; [|exact P2|cbn [with_ty dattr]; rewrite attr_of_app; exact SO].
  cbn [with_ty dty counter dq dauto dattr specifiers specifier].
  assert (E : switch cases (add_kw OTHER k) = None) by (destruct k; vm_compute; reflexivity).
  rewrite E. reflexivity.
Qed.

(** A struct, union, enum or typeof after a type: rejected. *)
Lemma add_kw_pos c k : 0 <= c -> 0 < add_kw c k.
Proof.
  intros H. assert (W : 0 < weight k) by (destruct k; reflexivity). unfold add_kw.
  assert (L : 0 < Z.lor c (weight k)).
  { pose proof (proj2 (Z.lor_nonneg c (weight k)) (conj H (Z.lt_le_incl _ _ W))).
    assert (Z.lor c (weight k) <> 0) by (rewrite Z.lor_eq_0_iff; lia). lia. }
  destruct k; auto; lia.
Qed.
Lemma tag_late t rest : forall l s, Forall plain l -> 0 <= counter s -> 0 < counter s \/ kws l <> [] ->
  run (l ++ TTag t :: rest) false s = Abort.
Proof.
  induction l as [|tk l IH]; intros s PL C0 C1.
  - cbn [app specifiers specifier]. destruct C1 as [C1|C1]; [|cbn in C1; congruence].
    destruct (Z.eqb_spec (counter s) 0); [lia|]. reflexivity.
  - inversion PL as [|? ? P1 PL']; subst. cbn [app specifiers].
    destruct tk as [k| | |qq| |k| | | | | |]; try destruct P1.
    + cbn [specifier]. destruct (switch cases (add_kw (counter s) k)); [|reflexivity]. cbn [bind].
      pose proof (add_kw_pos (counter s) k C0). apply IH; auto; unfold with_ty; cbn [counter]; lia.
    + cbn [specifier bind]. apply IH; auto.
    + cbn [dattr]. destruct (stor_clash (set_stor (dattr s) k)); auto.
    + cbn [specifier bind]. apply IH; auto.
Qed.
Theorem declspec_tag l t rest : Forall plain l -> kws l <> [] ->
  declspec AnyAttr c23 auty inferred (l ++ TTag t :: rest) = Abort.
Proof. intros PL K. unfold declspec. rewrite tag_late; auto. cbn. lia. Qed.
Theorem declspec_two_tags l1 x t' l2 t rest : x = TTag t' \/ x = TName t' ->
  Forall no_type l1 -> storage_ok l1 -> Forall plain l2 ->
  declspec AnyAttr c23 auty inferred (l1 ++ x :: l2 ++ TTag t :: rest) = Abort.
Proof.
  intros X P1 SO P2. apply storage_attr in SO. unfold declspec. rewrite quiet_ok by auto.
  cbn [dty counter dq dauto dattr].
  assert (E : forall s, counter s = 0 -> dauto s = false -> run (x :: l2 ++ TTag t :: rest) false s = Abort).
  { intros s C0 D0. destruct X as [-> | ->]; cbn [specifiers specifier]; rewrite C0, ?D0; cbn [Z.eqb negb orb bind];
      (apply tag_late; [auto| |left]; unfold with_ty, OTHER; cbn [counter]; lia). }
  rewrite E; reflexivity.
Qed.
End Loop.
