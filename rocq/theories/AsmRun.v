(** Proofs for AsmCodeModel.v: the whole statement. *)
From Coq Require Import Ascii String ZArith List Bool Lia Arith.
From Verif Require Import AsmSpec AsmModel AsmProofs AsmInv AsmPhase AsmAlloc AsmMain AsmCodeSpec AsmCodeModel AsmMach AsmPro AsmEpi.
Import ListNotations.
Local Open Scope string_scope.
Local Open Scope nat_scope.
Local Open Scope list_scope.

(** * Lists *)
Lemma nth_combine : forall A B (l : list A) (k : list B) i x y, nth_error (combine l k) i = Some (x, y) <-> nth_error l i = Some x /\ nth_error k i = Some y.
Proof.
  intros A B l. induction l as [|a l IH]; intros k i x y; [cbn [combine]; destruct i; cbn; split; [discriminate|intros []; discriminate|discriminate|intros []; discriminate]|].
  destruct k as [|b k]; [cbn [combine]; destruct i; cbn; split; [discriminate|intros []; discriminate|discriminate|intros []; discriminate]|].
  destruct i as [|i]; cbn [combine nth_error]; [|apply IH]. split; [intros H; injection H as -> ->; auto|intros [H1 H2]; injection H1 as ->; injection H2 as ->; reflexivity].
Qed.
Lemma nth_seq : forall n k i j, nth_error (seq k n) i = Some j <-> i < n /\ j = k + i.
Proof.
  induction n as [|n IH]; intros k i j; cbn [seq]; [destruct i; cbn; split; try discriminate; intros [X _]; lia|].
  destruct i as [|i]; cbn [nth_error]; [split; [intros H; injection H as <-; lia|intros [_ ->]; f_equal; lia]|]. rewrite IH. split; intros [X ->]; split; lia.
Qed.
Lemma fop_nth : forall A (R : A -> A -> Prop) l, (forall i j a b, i < j -> nth_error l i = Some a -> nth_error l j = Some b -> R a b) -> ForallOrdPairs R l.
Proof.
  intros A R l. induction l as [|a l IH]; intros H; [constructor|]. constructor.
  - apply Forall_forall. intros b B. apply In_nth_error in B as [j B]. apply (H 0 (Datatypes.S j)); [lia|reflexivity|exact B].
  - apply IH. intros i j x y L X Y. apply (H (Datatypes.S i) (Datatypes.S j)); [lia|exact X|exact Y].
Qed.
Lemma map_fst_combine : forall A B (l : list A) (k : list B), length l = length k -> map fst (combine l k) = l.
Proof. intros A B l. induction l as [|a l IH]; intros [|b k] H; try discriminate H; [reflexivity|]. cbn [combine map fst]. f_equal. apply IH. injection H. auto. Qed.
Lemma trips : forall n os ds xs k, map trip (combine (map (fun e => (fst e <? n, fst (snd e), snd (snd e))) (combine (seq k (length os)) (combine os ds))) xs) = combine (combine ds (map loc_of os)) xs.
Proof.
  intros n os. induction os as [|a os IH]; intros ds xs k; [destruct ds; reflexivity|].
  destruct ds as [|d ds]; [destruct xs; reflexivity|]. destruct xs as [|x xs]; [reflexivity|].
  cbn [length seq combine map fst snd]. f_equal. apply IH.
Qed.
Lemma nth_firstn : forall A n (l : list A) i a, nth_error (firstn n l) i = Some a <-> i < n /\ nth_error l i = Some a.
Proof.
  intros A n. induction n as [|n IH]; intros l i a; [cbn [firstn]; destruct i; cbn; split; try discriminate; intros [X _]; lia|].
  destruct l as [|b l]; [cbn [firstn]; destruct i; cbn; split; try discriminate; intros [_ X]; discriminate X|].
  destruct i as [|i]; cbn [firstn nth_error]; [split; [intros ->; split; [lia|reflexivity]|intros [_ X]; exact X]|]. rewrite IH. split; intros [X Y]; split; auto; lia.
Qed.

(** * Clobbers *)
Lemma clob_sp : forall l u u', asm_clobbers l u = Ok u' -> ~ In SP (u_in u) -> ~ In SP (u_in u').
Proof.
  intros l. induction l as [|s l IH]; intros u u' H N; cbn [asm_clobbers] in H; [injection H as <-; exact N|].
  destruct (String.eqb s "cc" || String.eqb s "memory"); [apply (IH u); assumption|]. bi H. destruct (Nat.eqb a SP || st a) eqn:Q; [apply (IH u); assumption|].
  destruct (a <? REG_END); [|discriminate H]. apply (IH _ _ H). cbn [u_in In]. intros [X|X]; [|contradiction]. apply orb_false_iff in Q as [Q _]. apply Nat.eqb_neq in Q. contradiction.
Qed.

Section Run.
Variables (outs ins : list operand) (cl : list string) (p : plan) (ds : list side) (xs : list obj).
Let os := outs ++ ins.
Let n := length outs.
Let l := pairs n p ds xs.
Hypothesis OUTS : forall o, In o outs -> input o = false /\ nums o = [].
Hypothesis INS : forall o, In o ins -> input o = true.
Hypothesis PREP : prepare outs ins cl = Ok p.
Hypothesis LD : length ds = length os.
Hypothesis LX : length xs = length os.
Hypothesis APART : forall i j, i <> j -> apart os (places p) i j.
Hypothesis NUMS : forall o k, In o ins -> In k (nums o) -> exists q r, nth_error os k = Some q /\ starts "=" q = true /\ nth_error (places p) k = Some (Reg r).
Hypothesis REGS : forall r, In (Reg r) (places p) -> r <> SP /\ (gp r = true \/ xmm r = true).
Hypothesis MEMS : ~ In (Mem SP) (places p).

Lemma nodig : no_digits os.
Proof.
  intros o I N. unfold os in I. apply in_app_iff in I as [I|I]; [apply OUTS; exact I|]. rewrite (INS o I) in N. discriminate N.
Qed.
Lemma pair_nth : forall i e, nth_error l i = Some e <-> exists a d x, nth_error (p_ops p) i = Some a /\ nth_error ds i = Some d /\ nth_error xs i = Some x /\ e = ((i <? n, a, d), x).
Proof.
  intros i [it x]. unfold l, pairs, items. rewrite nth_combine, nth_error_map. split.
  - intros [H X]. destruct (nth_error (combine _ _) i) as [[j [a d]]|] eqn:E; [|discriminate H]. injection H as <-. apply nth_combine in E as [S C]. apply nth_combine in C as [A D].
    apply nth_seq in S as [_ ->]. exists a, d, x. cbn [fst snd]. auto.
  - intros [a [d [y [A [D [X E]]]]]]. injection E as -> ->. split; [|exact X].
    assert (C : nth_error (combine (seq 0 (length (p_ops p))) (combine (p_ops p) ds)) i = Some (i, (a, d))).
    { apply nth_combine. split; [apply nth_seq; split; [apply nth_lt with a; exact A|reflexivity]|]. apply nth_combine. auto. }
    rewrite C. reflexivity.
Qed.
Lemma pair_in : forall e, In e l -> exists i, nth_error l i = Some e /\ nth_error (p_ops p) i = Some (kop e) /\ nth_error ds i = Some (kside e) /\ nth_error xs i = Some (snd e) /\ kout e = (i <? n).
Proof.
  intros e I. apply In_nth_error in I as [i H]. exists i. split; [exact H|]. apply pair_nth in H as [a [d [x [A [D [X ->]]]]]]. cbn [kop kside kout fst snd]. auto.
Qed.

Variables (u : use) (s : state).
Hypothesis CB : asm_clobbers cl (Use [] []) = Ok u.
Hypothesis PL : planned os (u_in u) p s n.
Let C := u_in u.
Let V : Inv os all s := l_inv _ _ _ (w_alloc _ _ _ _ _ PL).
Definition U (r : nat) : Prop := In r C \/ exists a, In a (p_ops p) /\ o_reg a = r /\ r <> 0.
Definition Uo (r : nat) : Prop := In r C \/ exists a, In a (p_ops p) /\ o_reg a = r /\ r <> 0 /\ input (o_src a) = false.
Lemma op_nth : forall i a, nth_error (p_ops p) i = Some a -> nth_error os i = Some (o_src a) /\ nth_error (places p) i = Some (loc_of a) /\ in_reg (loc_of a) = o_reg a /\ good (ops s) a.
Proof.
  intros i a H. rewrite <- (w_ops _ _ _ _ _ PL) in H. split; [apply (inv_src _ _ _ _ _ V H)|]. split; [apply (p_loc _ _ _ _ _ PL); exact H|]. split; [apply (in_reg_ok _ _ _ _ _ PL i); exact H|].
  apply (v_good _ _ _ V i a H). apply (w_all _ _ _ _ _ PL i a H).
Qed.
Lemma u_used : forall r, U r -> In r (u_in (used s)) \/ In r (u_out (used s)).
Proof.
  intros r [I|[a [I [R Z]]]]; [left; apply (l_cin _ _ _ (w_alloc _ _ _ _ _ PL)); exact I|]. rewrite <- (w_ops _ _ _ _ _ PL) in I. apply In_nth_error in I as [i I].
  destruct (v_use _ _ _ V i a I) as [A B]; [congruence|]. rewrite R in *. destruct (input (o_src a)); [left; auto|right; apply B; reflexivity].
Qed.
Lemma uo_used : forall r, Uo r -> In r (u_out (used s)).
Proof.
  intros r [I|[a [I [R [Z IN]]]]]; [apply (l_cin _ _ _ (w_alloc _ _ _ _ _ PL)); exact I|]. rewrite <- (w_ops _ _ _ _ _ PL) in I. apply In_nth_error in I as [i I].
  destruct (v_use _ _ _ V i a I) as [A B]; [congruence|]. rewrite R in *. apply B. exact IN.
Qed.
Lemma side_in : forall i o, nth_error os i = Some o -> input o = negb (i <? n).
Proof.
  intros i o H. unfold os in H. destruct (Nat.ltb_spec i n) as [L|L]; cbn [negb].
  - rewrite nth_error_app1 in H by exact L. apply nth_error_In in H. apply OUTS. exact H.
  - rewrite nth_error_app2 in H by exact L. apply nth_error_In in H. apply INS. exact H.
Qed.
Lemma reg_ok : forall i a, nth_error (p_ops p) i = Some a -> o_kind a = KReg -> o_reg a <> SP /\ o_reg a <> 0 /\ (gp (o_reg a) = true \/ xmm (o_reg a) = true).
Proof.
  intros i a H K. destruct (op_nth i a H) as [_ [L _]]. unfold loc_of in L. rewrite K in L. apply nth_error_In in L. destruct (REGS _ L) as [A B]. split; [exact A|]. split; [|exact B].
  intros E. rewrite E in B. destruct B as [B|B]; discriminate B.
Qed.
Lemma known_ok : known p l U Uo.
Proof.
  constructor.
  - intros e I Z. destruct (pair_in e I) as [i [_ [A _]]]. right. exists (kop e). split; [apply nth_error_In with i; exact A|auto].
  - intros e I O K. destruct (pair_in e I) as [i [_ [A [_ [_ N]]]]]. destruct (reg_ok i _ A K) as [_ [Z _]]. split; [exact Z|]. right. exists (kop e). split; [apply nth_error_In with i; exact A|].
    split; [reflexivity|]. split; [exact Z|]. destruct (op_nth i _ A) as [S _]. rewrite (side_in i _ S), <- N, O. reflexivity.
  - intros e I. destruct (pair_in e I) as [i [_ [A [_ [_ N]]]]]. destruct (op_nth i _ A) as [S _]. rewrite (side_in i _ S), negb_involutive. exact N.
  - intros e I K Z. destruct (pair_in e I) as [i [_ [A _]]]. destruct (op_nth i _ A) as [_ [_ [_ G]]]. unfold good, loc_of in G. rewrite K in G. apply G. exact Z.
  - intros e I K Z. destruct (pair_in e I) as [i [_ [A _]]]. destruct (op_nth i _ A) as [_ [_ [_ G]]]. unfold good, loc_of in G. rewrite K in G. apply G. exact Z.
  - intros e I K. destruct (pair_in e I) as [i [_ [A _]]]. apply (reg_ok i _ A K).
  - intros [I|[a [I [R Z]]]]; [apply (clob_sp _ _ _ CB) in I; [exact I|intros []]|]. apply In_nth_error in I as [i I]. destruct (op_nth i a I) as [_ [L [IR _]]]. rewrite R in IR. unfold loc_of in *.
    apply nth_error_In in L. destruct (o_kind a); cbn [in_reg] in IR; try (discriminate IR); rewrite IR in L; [exact (MEMS L)|]. destruct (REGS _ L) as [X _]. exact (X eq_refl).
  - intros r [I|[a [I [R [Z _]]]]]; [left; exact I|right; exists a; auto].
  - destruct (w_alt1 _ _ _ _ _ PL) as [[A [B D]]|[A [B D]]]; [left|right]; (split; [exact A|]; intros X; apply u_used in X as [X|X]; contradiction).
  - destruct (w_alt2 _ _ _ _ _ PL) as [[A [B D]]|[A [B [D E]]]]; [left; split; [exact A|]; intros X; apply u_used in X as [X|X]; contradiction|].
    right. split; [exact A|]. split; [intros X; apply u_used in X as [X|X]; contradiction|exact E].
  - intros r R [X|X]; apply (w_mask _ _ _ _ _ PL); auto; [apply u_used in X as [X|X]; auto|]. destruct X; auto.
Qed.
Lemma match_ld : forall i a o, nth_error (p_ops p) i = Some a -> In o ins -> In i (nums o) -> ld a = 0.
Proof.
  intros i a o A I N. destruct (NUMS o i I N) as [q [r [Q [S L]]]]. destruct (op_nth i a A) as [SA [LA _]]. unfold loc_of in LA. rewrite SA in Q. injection Q as <-.
  unfold ld. destruct (o_kind a); try congruence. rewrite S. reflexivity.
Qed.
Lemma shared_ld : forall i j a, nth_error (p_ops p) i = Some a -> share os (places p) i j -> ld a = 0.
Proof.
  intros i j a A [o [q [lo [O [Q [L [IN H]]]]]]]. destruct (op_nth i a A) as [SA [LA _]]. rewrite SA in O. injection O as <-. rewrite LA in L. injection L as <-.
  destruct H as [H|[H1 H2]].
  - unfold late in H. apply andb_true_iff in H as [H K]. apply andb_true_iff in H as [H _]. unfold loc_of in K. unfold ld. destruct (o_kind a); try discriminate K. rewrite H. reflexivity.
  - apply (match_ld i a q); auto. pose proof (side_in j q Q) as S. rewrite IN in S. unfold os in Q. destruct (Nat.ltb_spec j n) as [X|X]; [discriminate S|].
    rewrite nth_error_app2 in Q by exact X. apply nth_error_In in Q. exact Q.
Qed.
Lemma ld_reg : forall i a, nth_error (p_ops p) i = Some a -> ld a <> 0 -> ld a = in_reg (loc_of a).
Proof. intros i a A. unfold ld, loc_of. destruct (o_kind a); intros Z; try (destruct (Z eq_refl)); [reflexivity|]. destruct (starts "=" (o_src a)); [destruct (Z eq_refl)|reflexivity]. Qed.
Lemma apart_ok : ForallOrdPairs apart2 l.
Proof.
  apply fop_nth. intros i j e e' L A B Z E. apply pair_nth in A as [a [d [x [A [_ [_ ->]]]]]]. apply pair_nth in B as [b [d' [x' [B [_ [_ ->]]]]]]. cbn [kop fst snd] in *.
  pose proof Z as Z'. rewrite E in Z'. destruct (op_nth i a A) as [_ [LA _]]. destruct (op_nth j b B) as [_ [LB _]]. rewrite (ld_reg _ _ A Z) in E. rewrite (ld_reg _ _ B Z') in E.
  destruct (APART i j ltac:(lia) _ _ LA LB) as [S|S].
  - rewrite <- (ld_reg _ _ A Z). exact Z.
  - exact E.
  - apply (shared_ld _ _ _ A) in S. contradiction.
  - apply (shared_ld _ _ _ B) in S. contradiction.
Qed.
Hypothesis FLAGS : forall i j d r c, i < j -> nth_error (places p) i = Some (Reg r) -> nth_error ds i = Some d -> d_bits d <> None -> nth_error (places p) j <> Some (Flag c).
Lemma later_ok : ForallOrdPairs later (firstn n l).
Proof.
  apply fop_nth. intros i j e e' L A B. apply nth_firstn in A as [Ni A]. apply nth_firstn in B as [Nj B].
  apply pair_nth in A as [a [d [x [A [D [_ ->]]]]]]. apply pair_nth in B as [b [d' [x' [B [_ [_ ->]]]]]].
  destruct (op_nth i a A) as [SA [LA _]]. destruct (op_nth j b B) as [SB [LB _]].
  assert (NI : forall k o, k < n -> nth_error os k = Some o -> input o = true -> False).
  { intros k o X Y Z. rewrite (side_in k o Y) in Z. apply Nat.ltb_lt in X. rewrite X in Z. discriminate Z. }
  unfold later, bitty, is_flag. cbn [kop kside fst snd]. split.
  - intros KA KB E. destruct (reg_ok i a A KA) as [_ [Z _]]. unfold loc_of in LA, LB. rewrite KA in LA. rewrite KB in LB.
    destruct (APART i j ltac:(lia) _ _ LA LB Z E) as [[o [q [lo [_ [Q [_ [IN _]]]]]]]|[o [q [lo [_ [Q [_ [IN _]]]]]]]]; [apply (NI j q)|apply (NI i q)]; assumption.
  - destruct (o_kind a) eqn:KA; try discriminate. destruct (d_bits d) eqn:BD; [|discriminate]. intros _. unfold loc_of in LA, LB. rewrite KA in LA.
    destruct (o_kind b) eqn:KB; try reflexivity. destruct (FLAGS i j d (o_reg a) f L LA D ltac:(congruence) LB).
Qed.
Lemma tmp_ok : (forall e, In e l -> kout e = true -> ~ Uo (p_tmp p)) /\ p_tmp p <> alt_ptr p BP /\ p_tmp p <> alt_ptr p BX /\ p_tmp p <> SP /\ (R12 <= p_tmp p <= R15 -> In (p_tmp p) (p_mask p)).
Proof.
  assert (A1 : p_alt1 p = 0 \/ AX <= p_alt1 p <= R15) by (destruct (n_alt1 _ _ _ _ known_ok) as [[]|[]]; auto).
  assert (A2 : p_alt2 p = 0 \/ AX <= p_alt2 p <= R15) by (destruct (n_alt2 _ _ _ _ known_ok) as [[]|[]]; auto).
  rewrite alt_bp, alt_bx. destruct (Nat.eq_0_gt_0_cases n) as [N|N].
  - pose proof (w_tmp0 _ _ _ _ _ PL N) as T. rewrite T. split.
    + intros e I O. destruct (pair_in e I) as [i [_ [_ [_ [_ X]]]]]. rewrite O, N in X. discriminate X.
    + unfold AX, R12, R15, BP, BX, SP in *. destruct (Nat.eqb_spec (p_alt1 p) 0), (Nat.eqb_spec (p_alt2 p) 0); repeat split; lia.
  - destruct (w_tmp _ _ _ _ _ PL N) as [T1 T2]. split; [intros e _ _ X; apply uo_used in X; contradiction|].
    assert (T3 : p_tmp p <> SP /\ (R12 <= p_tmp p <= R15 -> In (p_tmp p) (p_mask p))).
    { split; [unfold AX, R15, BP, BX, SP in *; lia|]. intros R. apply (w_mask _ _ _ _ _ PL); auto 10. }
    unfold AX, R15, BP, BX in *. destruct (Nat.eqb_spec (p_alt1 p) 0), (Nat.eqb_spec (p_alt2 p) 0); repeat split; try apply T3; lia.
Qed.
Lemma change_ok : forall r, may_change n (places p) cl r -> U r \/ r > 32.
Proof.
  intros r [NS [[i [L H]]|[[c [I N]]|H]]]; [| |right; unfold XMM0 in H; lia]; left.
  - right. unfold places in H. rewrite nth_error_map in H. destruct (nth_error (p_ops p) i) as [a|] eqn:A; [|discriminate H]. exists a. split; [apply nth_error_In with i; exact A|].
    cbn [option_map] in H. injection H as H. unfold loc_of in H. destruct (o_kind a) eqn:K; try discriminate H. injection H as H. split; [exact H|]. destruct (reg_ok i a A K) as [_ [Z _]]. congruence.
  - left. destruct (clob_ok _ _ _ CB eq_refl) as [_ [_ K]]. destruct (named_ident _ _ N) as [ID [N1 N2]]. apply (K c r I N1 N2 ID).
    assert (RR : 0 < r < 33) by (destruct N as [x [L _]]; cbn [gp_names xmm_names app In] in L; repeat (destruct L as [L|L]; [injection L as <- _; lia|]); destruct L).
    apply orb_false_iff. split; [apply Nat.eqb_neq; exact NS|]. destruct (st r) eqn:S; [|reflexivity]. apply st_range in S. unfold ST0 in S. lia.
Qed.
Lemma items_len : length (items n p ds) = length xs.
Proof.
  unfold items. rewrite map_length, !combine_length, seq_length. pose proof (p_length _ _ _ _ _ PL) as Q. unfold places in Q. rewrite map_length in Q. rewrite LD, LX, Q. lia.
Qed.
Variables (m0 : machine) (F : nat) (sv : nat -> Z) (pro epi : list instr).
Hypothesis GEN : gen_asm n p ds F sv = Ok (pro, epi).
Hypothesis LAY : layout (rg m0) F sv l.
Hypothesis RDY : forall e, In e l -> ready (rg m0) (mm m0) (fst e) (snd e).
Hypothesis WF : forall r, In r keepers -> (0 <= rg m0 r < two 64)%Z.
Hypothesis FIT : forall d b w, In d ds -> d_bits d = Some (b, w) -> b + w <= 8 * d_size d.
Lemma run_ok : exists m1, exec pro m0 = Some m1 /\
  (forall i o d lo x, nth_error os i = Some o -> nth_error ds i = Some d -> nth_error (places p) i = Some lo -> nth_error xs i = Some x -> entry (rg m1) (via (alt_ptr p)) o d lo x) /\
  (forall a, (forall r, In r keepers -> ~ inside a (rg m0 F + sv r) 8) -> mm m1 a = mm m0 a) /\
  forall m2 g, behaves (may_change n (places p) cl) (private (rg m0) F sv l) m1 m2 -> fl m2 = Some g ->
  exists m3, exec epi m2 = Some m3 /\ (forall a, mm m3 a = fold_left (written (rg m2) g) (firstn n (combine (combine ds (places p)) xs)) (mm m2) a) /\
    (forall q, In q saved -> rg m3 q = rg m0 q).
Proof.
  unfold gen_asm in GEN. bi GEN. bi GEN. bi GEN. apply (f_equal (fun x => match x with Ok y => y | _ => (pro, epi) end)) in GEN. cbv beta iota in GEN.
  pose proof (f_equal fst GEN) as G1. pose proof (f_equal snd GEN) as G2. cbn [fst snd] in G1, G2. clear GEN. rewrite <- G1, <- G2. clear G1 G2.
  assert (ML : map fst l = items n p ds) by (apply map_fst_combine; apply items_len). rewrite <- ML in E, E0. rewrite <- ML, firstn_map in E1.
  destruct (begin_ok p l U Uo known_ok apart_ok m0 F sv LAY _ _ E E0 RDY WF) as [m1 [X1 B1]]. exists m1. split; [exact X1|]. split; [|split; [exact (h_mem _ _ _ _ _ _ _ B1)|]].
  - intros i o d lo x O D L X. unfold places in L. rewrite nth_error_map in L. destruct (nth_error (p_ops p) i) as [y|] eqn:A; [|discriminate L]. injection L as <-.
    destruct (op_nth i y A) as [SA _]. rewrite SA in O. injection O as <-.
    assert (I : nth_error l i = Some ((i <? n, y, d), x)) by (apply pair_nth; exists y, d, x; auto).
    apply nth_error_In in I. exact (h_entry _ _ _ _ _ _ _ B1 _ I).
  - intros m2 g BH FL. destruct tmp_ok as [T1 [T2 [T3 [T4 T5]]]].
    destruct (end_ok p l U Uo known_ok (rg m0) F sv LAY (conj T1 (conj T2 T3))) with (m0 := m0) (ch := may_change n (places p) cl) (g := g) (L := firstn n l) (k := a1) (m1 := m1) (m2 := m2) as [m3 [X3 [M3 R3]]]; auto.
    + intros e b w I B. destruct (pair_in e I) as [i [_ [_ [D _]]]]. apply nth_error_In in D. apply (FIT _ _ _ D B).
    + intros e h I H. specialize (RDY e I). unfold ready in RDY. rewrite H in RDY. apply RDY.
    + intros e I. apply In_nth_error in I as [i I]. apply nth_firstn in I as [N I]. split; [apply nth_error_In with i; exact I|]. apply pair_nth in I as [a2 [d [x [_ [_ [_ ->]]]]]].
      cbn [kout fst snd]. apply Nat.ltb_lt. exact N.
    + apply later_ok.
    + apply change_ok.
    + exists m3. split; [exact X3|]. split; [|exact R3]. intros y. rewrite M3, <- firstn_map. unfold l, pairs, items. rewrite trips. reflexivity.
Qed.
End Run.

Lemma asm_runs : forall outs ins cl p ds xs F sv pro epi m0, let os := outs ++ ins in let n := length outs in let l := pairs n p ds xs in
  (forall o, In o outs -> input o = false /\ nums o = []) -> (forall o, In o ins -> input o = true) -> prepare outs ins cl = Ok p -> length ds = length os -> length xs = length os ->
  (forall i j, i <> j -> apart os (places p) i j) ->
  (forall o k, In o ins -> In k (nums o) -> exists q r, nth_error os k = Some q /\ starts "=" q = true /\ nth_error (places p) k = Some (Reg r)) ->
  (forall r, In (Reg r) (places p) -> r <> SP /\ (gp r = true \/ xmm r = true)) -> ~ In (Mem SP) (places p) ->
  (forall i j d r c, i < j -> nth_error (places p) i = Some (Reg r) -> nth_error ds i = Some d -> d_bits d <> None -> nth_error (places p) j <> Some (Flag c)) ->
  (forall d b w, In d ds -> d_bits d = Some (b, w) -> b + w <= 8 * d_size d) ->
  gen_asm n p ds F sv = Ok (pro, epi) -> layout (rg m0) F sv l -> (forall e x, In (e, x) l -> ready (rg m0) (mm m0) e x) -> (forall r, In r keepers -> (0 <= rg m0 r < two 64)%Z) ->
  exists m1, exec pro m0 = Some m1 /\
  (forall i o d lo x, nth_error os i = Some o -> nth_error ds i = Some d -> nth_error (places p) i = Some lo -> nth_error xs i = Some x -> entry (rg m1) (via (alt_ptr p)) o d lo x) /\
  (forall a, (forall r, In r keepers -> ~ inside a (rg m0 F + sv r) 8) -> mm m1 a = mm m0 a) /\
  forall m2 g, behaves (may_change n (places p) cl) (private (rg m0) F sv l) m1 m2 -> fl m2 = Some g ->
  exists m3, exec epi m2 = Some m3 /\ (forall a, mm m3 a = fold_left (written (rg m2) g) (firstn n (combine (combine ds (places p)) xs)) (mm m2) a) /\
    (forall q, In q saved -> rg m3 q = rg m0 q).
Proof.
  intros outs ins cl p ds xs F sv pro epi m0 os n l H1 H2 H3 H4 H5 H6 H7 H8 H9 H10 H11 H12 H13 H14 H15.
  destruct (prepare_ok outs ins cl p (nodig outs ins H1 H2) H3) as [u [s [CB PL]]].
  apply (run_ok outs ins cl p ds xs H1 H2 H4 H5 H6 H7 H8 H9 u s CB PL H10 m0 F sv pro epi H12 H13); auto. intros [e x]. apply H14.
Qed.
