(** C19, C28: temporaries and local variables in the stack frame. *)
From Coq Require Import ZArith List Bool Lia Sorted.
From Verif Require Import Base FrameSpec FrameModel.
Import ListNotations.
Local Open Scope Z_scope.

Lemma int_of_ok z x : int_of z = Ok x -> x = z /\ INT_MIN <= z <= INT_MAX.
Proof. unfold int_of. destruct (_ && _) eqn:E; [|discriminate]. intros [= <-]. apply andb_true_iff in E as [A B]. apply Z.leb_le in A, B. auto. Qed.
Lemma int_of_in z : INT_MIN <= z <= INT_MAX -> int_of z = Ok z.
Proof. intros [A B]. unfold int_of. rewrite (proj2 (Z.leb_le _ _) A), (proj2 (Z.leb_le _ _) B). reflexivity. Qed.

(** *** Temporaries *)
Section Temporaries.
Variables (reuse : bool) (lv : Z).
(** What a slot that encloses a use of place [p] must record. *)
Definition covers (s : slot) (p : place) : Prop :=
  match p with
  | InGp n => n < s_gp s
  | InFp n => n < s_fp s
  | InMem o n => reuse = true -> - (lv + s_st s * 8) <= o
  end.
Fixpoint owner (b : nat) (l : list slot) : option slot :=
  match l with [] => None | s :: r => if Nat.ltb (s_born s) b then Some s else owner b r end.
Definition covered (l : list slot) (b : nat) (p : place) : Prop := match owner b l with Some s => covers s p | None => True end.
Definition bigger (s s' : slot) : Prop := s_born s' = s_born s /\ s_gp s <= s_gp s' /\ s_fp s <= s_fp s' /\ s_st s <= s_st s'.
Lemma covers_bigger s s' p : bigger s s' -> covers s p -> covers s' p.
Proof. intros [_ [A [B C]]]. destruct p; cbn [covers]; intros H; try lia. intros R. specialize (H R). lia. Qed.
Lemma covered_bigger l l' b p : Forall2 bigger l l' -> covered l b p -> covered l' b p.
Proof.
  unfold covered. induction 1 as [|s s' l l' HB F IH]; [auto|]. cbn [owner]. rewrite (proj1 HB). destruct (Nat.ltb _ _); [apply covers_bigger, HB|exact IH].
Qed.
Lemma bigger_refl s : bigger s s. Proof. repeat split; lia. Qed.
Lemma bigger_refl_l l : Forall2 bigger l l. Proof. induction l; constructor; auto using bigger_refl. Qed.
Fixpoint descending (t : nat) (l : list slot) : Prop := match l with [] => True | s :: r => (s_born s < t)%nat /\ descending (s_born s) r end.
Lemma descending_weak t u l : (t <= u)%nat -> descending t l -> descending u l.
Proof. destruct l; cbn [descending]; intuition lia. Qed.
Lemma descending_bigger l l' t : Forall2 bigger l l' -> descending t l -> descending t l'.
Proof. intros F. revert t. induction F as [|s s' l l' HB F IH]; intros t; [auto|]. cbn [descending]. rewrite (proj1 HB). intros [A B]. auto. Qed.
Lemma descending_in t l s : descending t l -> In s l -> (s_born s < t)%nat.
Proof. revert t. induction l as [|x l IH]; intros t H HI; [destruct HI|]. cbn [descending] in H. destruct HI as [<-|HI]; [tauto|]. specialize (IH _ (proj2 H) HI). lia. Qed.

(** Uses so far: those of the temporaries already popped, and of the registers clobbered. *)
Record inv (es : list event) (st : tstate) (log : list temporary) : Prop := mkinv {
  i_desc : descending (length es) (t_stack st);
  i_log : forall x, In x log -> (made x < used x)%nat /\ (used x < length es)%nat;
  i_cov : forall x, In x log -> covered (t_stack st) (made x) (where_ x);
  i_new : forall x s, In x log -> In s (t_stack st) -> made x <> s_born s;
  i_clob : forall c i n, nth_error es c = Some (EClobberGp i) -> n < i -> covered (t_stack st) c (InGp n);
  i_all : forall c s, nth_error es c = Some EClobber -> In s (t_stack st) -> (s_born s < c)%nat -> s_kind s = SL_ST;
  i_sep : forall x y, In x log -> In y log -> (made x < made y)%nat -> (made y < used x)%nat -> separate (where_ x) (where_ y);
  i_one : forall x y, In x log -> In y log -> made x = made y -> x = y;
  i_ord : forall x, In x log -> forall c i n, nth_error es c = Some (EClobberGp i) -> (made x < c)%nat -> (c < used x)%nat -> n < i -> where_ x <> InGp n;
  i_ord2 : forall x, In x log -> forall c, nth_error es c = Some EClobber -> (made x < c)%nat -> (c < used x)%nat -> exists o n, where_ x = InMem o n;
  i_frame : forall x, In x log -> match where_ x with InGp n => 0 <= n < GP_SLOTS | InFp n => 0 <= n < FP_SLOTS | InMem o n => - t_peak st <= o /\ o + n <= - lv /\ 0 < n /\ n mod 8 = 0 /\ (8 | o + lv) end;
  i_pos : forall s, In s (t_stack st) -> 0 <= s_gp s /\ 0 <= s_fp s /\ 0 <= s_st s;
  i_nest : forall x s, In x log -> In s (t_stack st) -> (made x < s_born s)%nat -> (used x < s_born s)%nat;
  i_peak : lv <= t_peak st /\ (8 | t_peak st - lv)
}.
Lemma inv_init : inv [] (mkts [] lv) [].
Proof.
  assert (NE : forall c (e : event), nth_error [] c <> Some e) by (intros [|c] e; discriminate).
  constructor; cbn [t_stack t_peak length descending In]; try (intros; contradiction); auto.
  - intros c i n H. destruct (NE _ _ H).
  - split; [lia|]. rewrite Z.sub_diag. apply Z.divide_0_r.
Qed.
Lemma nth_snoc {A} (l : list A) x c y : nth_error (l ++ [x]) c = Some y -> (nth_error l c = Some y /\ (c < length l)%nat) \/ (c = length l /\ y = x).
Proof.
  intros H. destruct (Nat.lt_ge_cases c (length l)) as [L|L]; [left; rewrite nth_error_app1 in H by exact L; auto|].
  rewrite nth_error_app2 in H by exact L. right. destruct (c - length l)%nat as [|k] eqn:E; [cbn in H; injection H as <-; split; [lia|reflexivity]|destruct k; discriminate].
Qed.
Lemma covered_cons l s t b p : (b <= s_born s)%nat -> t = s_born s -> covered l b p -> covered (s :: l) b p.
Proof. intros H _ C. unfold covered in *. cbn [owner]. rewrite (proj2 (Nat.ltb_ge _ _)) by lia. exact C. Qed.
Lemma inv_push es st log k : inv es st log -> inv (es ++ [EPush k]) (mkts (mkslot k 0 0 0 (length es) :: t_stack st) (t_peak st)) log.
Proof.
  intros V. constructor; cbn [t_stack t_peak].
  - rewrite app_length. cbn [length descending s_born]. split; [lia|]. apply V.
  - intros x Hx. rewrite app_length. cbn [length]. destruct (i_log _ _ _ V x Hx). lia.
  - intros x Hx. destruct (i_log _ _ _ V x Hx). eapply covered_cons; [cbn [s_born]; lia|reflexivity|apply V; exact Hx].
  - intros x s Hx [<-|Hs]; [cbn [s_born]; destruct (i_log _ _ _ V x Hx); lia|apply V; assumption].
  - intros c i n H L. destruct (nth_snoc _ _ _ _ H) as [[H1 L1]|[_ E]]; [|discriminate]. eapply covered_cons; [cbn [s_born]; lia|reflexivity|]. eapply (i_clob _ _ _ V); eauto.
  - intros c s H [<-|Hs] L; destruct (nth_snoc _ _ _ _ H) as [[H1 L1]|[_ E]]; try discriminate; [cbn [s_born] in L; lia|]. eapply (i_all _ _ _ V); eauto.
  - apply V.
  - apply V.
  - intros x Hx c i n H. destruct (nth_snoc _ _ _ _ H) as [[H1 L1]|[_ E]]; [|discriminate]. eapply (i_ord _ _ _ V); eauto.
  - intros x Hx c H. destruct (nth_snoc _ _ _ _ H) as [[H1 L1]|[_ E]]; [|discriminate]. eapply (i_ord2 _ _ _ V); eauto.
  - apply V.
  - intros s [<-|Hs]; [cbn; lia|apply V, Hs].
  - intros x s Hx [<-|Hs]; [intros _; cbn [s_born]; apply (i_log _ _ _ V x Hx)|apply V; assumption].
  - apply V.
Qed.
Lemma in_to_st s l : In s (map to_st l) -> exists s', In s' l /\ s = to_st s'.
Proof. intros H. apply in_map_iff in H as [s' [E H]]. eauto. Qed.
Lemma inv_clobber es st log : inv es st log -> inv (es ++ [EClobber]) (mkts (map to_st (t_stack st)) (t_peak st)) log.
Proof.
  intros V. assert (BG : Forall2 bigger (t_stack st) (map to_st (t_stack st))).
  { generalize (t_stack st). induction l as [|s l IH]; constructor; [|exact IH]. repeat split; cbn; lia. }
  constructor; cbn [t_stack t_peak].
  - rewrite app_length. cbn [length]. eapply descending_weak; [|eapply descending_bigger; [exact BG|apply V]]. lia.
  - intros x Hx. rewrite app_length. cbn [length]. destruct (i_log _ _ _ V x Hx). lia.
  - intros x Hx. eapply covered_bigger; [exact BG|apply V; exact Hx].
  - intros x s Hx Hs. apply in_to_st in Hs as [s' [Hs ->]]. cbn [to_st s_born]. apply V; assumption.
  - intros c i n H L. destruct (nth_snoc _ _ _ _ H) as [[H1 L1]|[_ E]]; [|discriminate]. eapply covered_bigger; [exact BG|]. eapply (i_clob _ _ _ V); eauto.
  - intros c s _ Hs _. apply in_to_st in Hs as [s' [_ ->]]. reflexivity.
  - apply V.
  - apply V.
  - intros x Hx c i n H. destruct (nth_snoc _ _ _ _ H) as [[H1 L1]|[_ E]]; [|discriminate]. eapply (i_ord _ _ _ V); eauto.
  - intros x Hx c H M U. destruct (nth_snoc _ _ _ _ H) as [[H1 L1]|[-> _]]; [eapply (i_ord2 _ _ _ V); eauto|]. destruct (i_log _ _ _ V x Hx). lia.
  - apply V.
  - intros s Hs. apply in_to_st in Hs as [s' [Hs ->]]. cbn [to_st s_gp s_fp s_st]. apply V, Hs.
  - intros x s Hx Hs. apply in_to_st in Hs as [s' [Hs ->]]. cbn [to_st s_born]. apply V; assumption.
  - apply V.
Qed.
Lemma inv_clobber_gp es st log i st' : inv es st log -> tstep reuse lv (length es) (EClobberGp i) st = Ok (st', []) -> inv (es ++ [EClobberGp i]) st' log.
Proof.
  intros V H. assert (P : t_peak st' = t_peak st /\ Forall2 bigger (t_stack st) (t_stack st') /\ (forall s', In s' (t_stack st') -> exists s, In s (t_stack st) /\ s_born s' = s_born s /\ s_kind s' = s_kind s /\ bigger s s') /\
    forall n, n < i -> covered (t_stack st') (length es) (InGp n)).
  { cbn [tstep] in H. pose proof (i_desc _ _ _ V) as D. destruct (t_stack st) as [|s r] eqn:ES; injection H as <-.
    - rewrite ES. split; [reflexivity|]. split; [constructor|]. split; [intros s []|]. intros n _. exact Logic.I.
    - cbn [t_peak t_stack]. split; [reflexivity|]. set (s' := mkslot _ _ _ _ _). assert (BG : bigger s s') by (repeat split; cbn; lia). split; [constructor; [exact BG|apply bigger_refl_l]|]. split.
      + intros u [<-|Hu]; [exists s; split; [left; reflexivity|]; split; [reflexivity|]; split; [reflexivity|exact BG]|exists u; split; [right; exact Hu|]; split; [reflexivity|]; split; [reflexivity|apply bigger_refl]].
      + intros n L. unfold covered. cbn [owner]. change (s_born s') with (s_born s). cbn [descending] in D. rewrite (proj2 (Nat.ltb_lt _ _)) by tauto. subst s'. cbn [covers s_gp]. lia. }
  destruct P as [P1 [BG [P3 P4]]]. constructor.
  - rewrite app_length. cbn [length]. eapply descending_weak; [|eapply descending_bigger; [exact BG|apply V]]. lia.
  - intros x Hx. rewrite app_length. cbn [length]. destruct (i_log _ _ _ V x Hx). lia.
  - intros x Hx. eapply covered_bigger; [exact BG|apply V; exact Hx].
  - intros x s Hx Hs. destruct (P3 s Hs) as [s' [I' [E _]]]. rewrite E. apply V; assumption.
  - intros c j n HC L. destruct (nth_snoc _ _ _ _ HC) as [[H1 L1]|[-> E]]; [eapply covered_bigger; [exact BG|]; eapply (i_clob _ _ _ V); eauto|]. injection E as ->. apply P4. exact L.
  - intros c s HC Hs L. destruct (P3 s Hs) as [s' [I' [E [K _]]]]. destruct (nth_snoc _ _ _ _ HC) as [[H1 L1]|[_ E2]]; [|discriminate]. rewrite K. eapply (i_all _ _ _ V); eauto. lia.
  - apply V.
  - apply V.
  - intros x Hx c j n HC M U L. destruct (nth_snoc _ _ _ _ HC) as [[H1 L1]|[-> _]]; [eapply (i_ord _ _ _ V); eauto|]. destruct (i_log _ _ _ V x Hx). lia.
  - intros x Hx c HC. destruct (nth_snoc _ _ _ _ HC) as [[H1 L1]|[_ E]]; [|discriminate]. eapply (i_ord2 _ _ _ V); eauto.
  - rewrite P1. apply V.
  - intros s Hs. destruct (P3 s Hs) as [s' [I' [_ [_ [_ BB]]]]]. destruct (i_pos _ _ _ V s' I') as [A [B C]]. lia.
  - intros x s Hx Hs. destruct (P3 s Hs) as [s' [I' [E _]]]. rewrite E. apply V; assumption.
  - rewrite P1. apply V.
Qed.
(** What the pop of the topmost slot gives. *)
Lemma pop_facts st st' b p w s r : t_stack st = s :: r -> pop_tmpstack reuse lv w st = Ok (st', (b, p)) ->
  b = s_born s /\ Forall2 bigger r (t_stack st') /\
  (forall s2 r2, r = s2 :: r2 -> exists s2', t_stack st' = s2' :: r2 /\ s_kind s2' = s_kind s2 /\ bigger s2 s2' /\ s_gp s <= s_gp s2' /\ s_fp s <= s_fp s2' /\ s_st s <= s_st s2' /\ covers s2' p) /\
  t_peak st <= t_peak st' /\
  match p with
  | InGp n => n = s_gp s /\ s_kind s = SL_GP /\ n < GP_SLOTS
  | InFp n => n = s_fp s /\ s_kind s = SL_FP /\ n < FP_SLOTS
  | InMem o n => 0 < n /\ n mod 8 = 0 /\ - t_peak st' <= o /\ (if reuse then exists z, 1 <= z /\ o = - (lv + (s_st s + z) * 8) /\ n = 8 * z else o = - t_peak st' /\ t_peak st' = t_peak st + n)
  end /\ (lv <= t_peak st -> (8 | t_peak st - lv) -> 0 <= s_st s -> lv <= t_peak st' /\ (8 | t_peak st' - lv)).
Proof.
  intros ES H. unfold pop_tmpstack in H. rewrite ES in H. set (sz := if w then 2 else 1) in *. assert (SZ : 1 <= sz <= 2) by (destruct w; cbn; lia). clearbody sz. assert (N8 : exists n8, n8 = 8 * sz) by eauto. destruct N8 as [n8 N8].
  destruct (int_of (s_st s + _)) as [d| |] eqn:ED; cbn [bind] in H; try discriminate. apply int_of_ok in ED as [ED _].
  set (r' := match r with [] => [] | _ => _ end) in *.
  assert (BR : Forall2 bigger r r').
  { subst r'. destruct r as [|s2 r2]; constructor; [|apply bigger_refl_l]. repeat split; cbn; lia. }
  assert (DV : forall a, (8 | a - lv) -> forall k, (8 | a + k * 8 - lv)) by (intros a [q Hq] k; exists (q + k); lia).
  assert (K : pop_kind s = SL_GP -> s_kind s = SL_GP /\ s_gp s < GP_SLOTS) by (unfold pop_kind; destruct (s_kind s); try discriminate; [destruct (Z.leb_spec GP_SLOTS (s_gp s)); [discriminate|auto]|destruct (_ <=? _); discriminate]).
  assert (K2 : pop_kind s = SL_FP -> s_kind s = SL_FP /\ s_fp s < FP_SLOTS) by (unfold pop_kind; destruct (s_kind s); try discriminate; [destruct (_ <=? _); discriminate|destruct (Z.leb_spec FP_SLOTS (s_fp s)); [discriminate|auto]]).
  assert (REST : forall p', (forall s2', s_gp s + is_kind (pop_kind s) SL_GP <= s_gp s2' -> s_fp s + is_kind (pop_kind s) SL_FP <= s_fp s2' -> d <= s_st s2' -> covers s2' p') ->
    forall s2 r2, r = s2 :: r2 -> exists s2', r' = s2' :: r2 /\ s_kind s2' = s_kind s2 /\ bigger s2 s2' /\ s_gp s <= s_gp s2' /\ s_fp s <= s_fp s2' /\ s_st s <= s_st s2' /\ covers s2' p').
  { intros p' CV s2 r2 ->. subst r'. eexists. split; [reflexivity|]. cbn [s_kind]. split; [reflexivity|]. split; [repeat split; cbn; lia|]. cbn [s_gp s_fp s_st].
    split; [destruct (pop_kind s); cbn [is_kind]; lia|]. split; [destruct (pop_kind s); cbn [is_kind]; lia|]. split; [subst d; destruct (pop_kind s); cbn [is_kind]; lia|]. apply CV; cbn [s_gp s_fp s_st]; lia. }
  rewrite <- N8 in H. destruct (pop_kind s) eqn:PK.
  - injection H as <- <- <-. cbn [t_stack t_peak]. split; [reflexivity|]. split; [exact BR|]. split; [|split; [lia|split; [destruct (K eq_refl); auto|intros; split; assumption]]]. apply REST. cbn [is_kind covers]. intros. lia.
  - injection H as <- <- <-. cbn [t_stack t_peak]. split; [reflexivity|]. split; [exact BR|]. split; [|split; [lia|split; [destruct (K2 eq_refl); auto|intros; split; assumption]]]. apply REST. cbn [is_kind covers]. intros. lia.
  - cbn [is_kind] in ED. destruct reuse eqn:ER.
    + destruct (int_of (lv + _)) as [x| |] eqn:EX; cbn [bind] in H; try discriminate. apply int_of_ok in EX as [EX _]. injection H as <- <- <-. cbn [t_stack t_peak]. split; [reflexivity|]. split; [exact BR|]. split; [|split; [lia|split]].
      * apply REST. cbn [is_kind covers]. intros s2' _ _ Q _. subst. nia.
      * split; [lia|]. split; [rewrite N8, Z.mul_comm; apply Z.mod_mul; lia|]. split; [lia|]. exists sz. subst. lia.
      * intros A B C. split; [lia|]. destruct (Z.max_spec (t_peak st) x) as [[_ ->]|[_ ->]]; [|exact B]. subst. exists (s_st s + sz). lia.
    + destruct (int_of (t_peak st + _)) as [x| |] eqn:EX; cbn [bind] in H; try discriminate. apply int_of_ok in EX as [EX _]. injection H as <- <- <-. cbn [t_stack t_peak]. split; [reflexivity|]. split; [exact BR|]. split; [|split; [lia|split]].
      * apply REST. cbn [is_kind covers]. intros s2' _ _ _ RT. congruence.
      * split; [lia|]. split; [rewrite N8, Z.mul_comm; apply Z.mod_mul; lia|]. split; [lia|]. subst. lia.
      * intros A B C. subst. split; [lia|]. apply DV. exact B.
Qed.
Lemma owner_skip s l b : (b <= s_born s)%nat -> owner b (s :: l) = owner b l.
Proof. intros H. cbn [owner]. rewrite (proj2 (Nat.ltb_ge _ _)) by lia. reflexivity. Qed.
Lemma owner_top s l b : (s_born s < b)%nat -> owner b (s :: l) = Some s.
Proof. intros H. cbn [owner]. rewrite (proj2 (Nat.ltb_lt _ _)) by lia. reflexivity. Qed.
Lemma inv_pop es st log w st' b p : inv es st log -> pop_tmpstack reuse lv w st = Ok (st', (b, p)) -> inv (es ++ [EPop w]) st' (mktmp b (length es) p :: log).
Proof.
  intros V H. destruct (t_stack st) as [|s r] eqn:ES; [unfold pop_tmpstack in H; rewrite ES in H; discriminate|].
  destruct (pop_facts st st' b p w s r ES H) as [-> [BR [REST [PK [PL PE]]]]]. pose proof (i_desc _ _ _ V) as D. rewrite ES in D. cbn [descending] in D. destruct D as [D1 D2].
  destruct (i_pos _ _ _ V s ltac:(rewrite ES; left; reflexivity)) as [Q1 [Q2 Q3]]. destruct (i_peak _ _ _ V) as [L1 L2]. specialize (PE L1 L2 Q3).
  (* transfer of what the popped slot covers *)
  assert (TR : forall c q, covered (t_stack st) c q -> covered (t_stack st') c q).
  { intros c q C. rewrite ES in C. destruct (Nat.lt_ge_cases (s_born s) c) as [L|L].
    - unfold covered in C. rewrite owner_top in C by exact L. destruct r as [|s2 r2]; [inversion BR; subst; exact Logic.I|]. destruct (REST _ _ eq_refl) as [s2' [E [_ [[EB _] [G1 [G2 [G3 _]]]]]]]. rewrite E. cbn [descending] in D2. unfold covered. rewrite owner_top by lia.
      destruct q; cbn [covers] in *; try lia. intros R. specialize (C R). lia.
    - unfold covered in C. rewrite owner_skip in C by exact L. eapply covered_bigger; [exact BR|exact C]. }
  assert (TOP : forall c q, (s_born s < c)%nat -> covered (t_stack st) c q -> covers s q) by (intros c q L C; rewrite ES in C; unfold covered in C; rewrite owner_top in C by exact L; exact C).
  assert (INB : forall u, In u (t_stack st') -> exists v, In v r /\ s_born u = s_born v /\ s_kind u = s_kind v /\ bigger v u).
  { intros u Hu. destruct r as [|s2 r2]; [inversion BR as [E|]; subst; rewrite <- H0 in Hu; destruct Hu|]. destruct (REST _ _ eq_refl) as [s2' [E [K [B _]]]]. rewrite E in Hu. destruct Hu as [<-|Hu]; [exists s2; split; [left; reflexivity|]; split; [apply B|]; split; [exact K|exact B]|exists u; split; [right; exact Hu|]; repeat split; lia]. }
  assert (NEWC : forall q, covers s q -> separate p q /\ separate q p \/ exists o n, q = InMem o n).
  { intros q C. destruct q as [n|n|o n]; [left|left|right; eauto]; destruct p as [m|m|o m]; cbn [separate covers] in *; try (split; exact Logic.I); destruct PL as [-> _]; lia. }
  constructor.
  - rewrite app_length. cbn [length]. eapply descending_bigger; [exact BR|]. eapply descending_weak; [|exact D2]. lia.
  - intros x [<-|Hx]; rewrite app_length; cbn [length made used]; [lia|]. destruct (i_log _ _ _ V x Hx). lia.
  - intros x [<-|Hx]; [|apply TR, V, Hx]. cbn [made where_]. destruct r as [|s2 r2]; [inversion BR; subst; exact Logic.I|]. destruct (REST _ _ eq_refl) as [s2' [E [_ [[EB _] [_ [_ [_ C]]]]]]]. rewrite E. cbn [descending] in D2. unfold covered. rewrite owner_top by lia. exact C.
  - intros x u [<-|Hx] Hu; destruct (INB u Hu) as [v [Hv [E _]]]; rewrite E.
    + cbn [made]. pose proof (descending_in _ _ _ D2 Hv). lia.
    + apply (i_new _ _ _ V); [exact Hx|]. rewrite ES. right. exact Hv.
  - intros c i n HC L. destruct (nth_snoc _ _ _ _ HC) as [[H1 L3]|[_ E]]; [|discriminate]. apply TR. eapply (i_clob _ _ _ V); eauto.
  - intros c u HC Hu L. destruct (INB u Hu) as [v [Hv [E [K _]]]]. destruct (nth_snoc _ _ _ _ HC) as [[H1 L3]|[_ E2]]; [|discriminate]. rewrite K. eapply (i_all _ _ _ V); [exact H1| |lia]. rewrite ES. right. exact Hv.
  - intros x y [<-|Hx] [<-|Hy] M1 M2; cbn [made used where_] in *; try lia.
    + pose proof (TOP _ _ M1 (i_cov _ _ _ V y Hy)) as C. destruct (NEWC _ C) as [[S1 _]|[o [n E]]]; [exact S1|]. rewrite E in *. destruct p as [m|m|o' m]; cbn [separate]; try exact Logic.I. cbn [covers] in C.
      pose proof (i_frame _ _ _ V y Hy) as FY. rewrite E in FY. destruct PL as [P1 [P2 [P3 P4]]]. destruct reuse; [destruct P4 as [z [Z1 [-> ->]]]; specialize (C eq_refl); left; lia|destruct P4 as [-> P4]; left; lia].
    + pose proof (i_nest _ _ _ V x s Hx ltac:(rewrite ES; left; reflexivity) M1). lia.
    + apply (i_sep _ _ _ V); assumption.
  - intros x y [<-|Hx] [<-|Hy] E; cbn [made] in E; auto.
    + exfalso. apply (i_new _ _ _ V y s Hy); [rewrite ES; left; reflexivity|congruence].
    + exfalso. apply (i_new _ _ _ V x s Hx); [rewrite ES; left; reflexivity|congruence].
    + apply (i_one _ _ _ V); assumption.
  - intros x [<-|Hx] c i n HC M U L; destruct (nth_snoc _ _ _ _ HC) as [[H1 L3]|[_ E]]; try discriminate; [|eapply (i_ord _ _ _ V); eauto]. cbn [made used where_] in *.
    pose proof (TOP c (InGp n) M (i_clob _ _ _ V c i n H1 L)) as C. cbn [covers] in C. intros ->. destruct PL as [-> _]. lia.
  - intros x [<-|Hx] c HC M U; destruct (nth_snoc _ _ _ _ HC) as [[H1 L3]|[_ E]]; try discriminate; [|eapply (i_ord2 _ _ _ V); eauto]. cbn [made used where_] in *.
    assert (K : s_kind s = SL_ST) by (eapply (i_all _ _ _ V); [exact H1|rewrite ES; left; reflexivity|exact M]). destruct p as [m|m|o m]; [destruct PL as [_ [E _]]; congruence|destruct PL as [_ [E _]]; congruence|eauto].
  - intros x [<-|Hx]; cbn [where_].
    + destruct p as [m|m|o m]; [destruct PL as [-> [_ PL]]; lia|destruct PL as [-> [_ PL]]; lia|]. destruct PL as [P1 [P2 [P3 P4]]]. split; [exact P3|]. destruct reuse; [destruct P4 as [z [Z1 [-> ->]]]; repeat split; auto; [lia|exists (- (s_st s + z)); lia]|destruct P4 as [-> P4]; repeat split; auto; [lia|]]. destruct PE as [_ [k Hk]]. exists (- k). lia.
    + pose proof (i_frame _ _ _ V x Hx) as F. destruct (where_ x); auto. destruct F as [F1 F2]. split; [lia|exact F2].
  - intros u Hu. destruct (INB u Hu) as [v [Hv [_ [_ B]]]]. destruct (i_pos _ _ _ V v ltac:(rewrite ES; right; exact Hv)) as [A1 [A2 A3]]. destruct B as [_ [B1 [B2 B3]]]. lia.
  - intros x u [<-|Hx] Hu; destruct (INB u Hu) as [v [Hv [E _]]]; rewrite E; [cbn [made]; pose proof (descending_in _ _ _ D2 Hv); lia|]. apply (i_nest _ _ _ V); [exact Hx|rewrite ES; right; exact Hv].
  - exact PE.
Qed.
Lemma inv_run : forall es done st log st' log', inv done st log -> trun reuse lv (length done) es st log = Ok (st', log') -> inv (done ++ es) st' log'.
Proof.
  induction es as [|e es IH]; intros done st log st' log' V H; cbn [trun] in H; [injection H as <- <-; rewrite app_nil_r; exact V|].
  destruct (tstep reuse lv (length done) e st) as [[s1 l1]| |] eqn:E; cbn [bind fst snd] in H; try discriminate.
  assert (V' : inv (done ++ [e]) s1 (l1 ++ log)).
  { destruct e as [k|w| |i]; cbn [tstep] in E.
    - injection E as <- <-. apply inv_push, V.
    - destruct (pop_tmpstack reuse lv w st) as [[s2 [b p]]| |] eqn:P; cbn [bind fst snd] in E; try discriminate. injection E as <- <-. apply inv_pop with (st := st); assumption.
    - injection E as <- <-. apply inv_clobber, V.
    - assert (l1 = []) by (destruct (t_stack st); injection E as _ <-; reflexivity). subst. apply inv_clobber_gp with (st := st); assumption. }
  replace (done ++ e :: es) with ((done ++ [e]) ++ es) by (rewrite <- app_assoc; reflexivity). eapply IH; [exact V'|]. rewrite app_length. cbn [length]. rewrite Nat.add_1_r. exact H.
Qed.
End Temporaries.
Theorem temporaries_ok reuse lv es st log : temporaries reuse lv es = Ok (st, log) ->
  (forall x y, In x log -> In y log -> (made x < made y)%nat -> (made y < used x)%nat -> separate (where_ x) (where_ y)) /\
  (forall x y, In x log -> In y log -> made x = made y -> x = y) /\
  (forall x c, In x log -> (made x < c < used x)%nat -> nth_error es c = Some EClobber -> exists o n, where_ x = InMem o n) /\
  (forall x c i, In x log -> (made x < c < used x)%nat -> nth_error es c = Some (EClobberGp i) -> forall n, where_ x = InGp n -> i <= n) /\
  (forall x, In x log -> match where_ x with InGp n => 0 <= n < 6 | InFp n => 0 <= n < 6 | InMem o n => - t_peak st <= o /\ o + n <= - lv /\ 0 < n /\ (8 | o + lv) end).
Proof.
  intros H. pose proof (inv_run reuse lv es [] _ _ _ _ (inv_init reuse lv) H) as V. cbn [app] in V. split; [|split; [|split; [|split]]].
  - apply V.
  - apply V.
  - intros x c Hx [A B] E. eapply (i_ord2 _ _ _ _ _ V); eauto.
  - intros x c i Hx [A B] E n W. destruct (Z.le_gt_cases i n) as [L|L]; [exact L|]. exfalso. exact (i_ord _ _ _ _ _ V x Hx c i n E A B L W).
  - intros x Hx. pose proof (i_frame _ _ _ _ _ V x Hx) as F. destruct (where_ x); [exact F|exact F|]. tauto.
Qed.
(** *** Which temporaries there are, and when there is room *)
Definition span (x : temporary) : nat * nat := (made x, used x).
Lemma pop_stack reuse lv w st st' b p : pop_tmpstack reuse lv w st = Ok (st', (b, p)) ->
  exists r, map s_born (t_stack st) = b :: r /\ map s_born (t_stack st') = r /\ forall o n, p = InMem o n -> n = if w then 16 else 8.
Proof.
  unfold pop_tmpstack. destruct (t_stack st) as [|s r]; [discriminate|]. destruct (int_of _); cbn [bind]; try discriminate.
  destruct (pop_kind s); [| |destruct reuse; (destruct (int_of _); cbn [bind]; [|discriminate|discriminate])]; intros [= <- <- <-]; exists (map s_born r); cbn [t_stack map]; (split; [reflexivity|split; [destruct r; reflexivity|]]); intros o n H; try discriminate; injection H as _ <-; destruct w; reflexivity.
Qed.
Lemma run_lifetimes reuse lv : forall es t st log st' log', trun reuse lv t es st log = Ok (st', log') ->
  exists new, log' = rev new ++ log /\ lifetimes t es (map s_born (t_stack st)) = Some (map span new) /\
    forall x, In x new -> exists w, nth_error es (used x - t) = Some (EPop w) /\ (t <= used x)%nat /\ forall o n, where_ x = InMem o n -> n = if w then 16 else 8.
Proof.
  induction es as [|e es IH]; intros t st log st' log' H; cbn [trun] in H; [injection H as <- <-; exists []; split; [reflexivity|split; [reflexivity|intros x []]]|].
  destruct (tstep reuse lv t e st) as [[s1 l1]| |] eqn:E; cbn [bind fst snd] in H; try discriminate.
  destruct (IH _ _ _ _ _ H) as [new [E1 [E2 E3]]]. clear IH.
  assert (SH : forall x, In x new -> exists w, nth_error (e :: es) (used x - t) = Some (EPop w) /\ (t <= used x)%nat /\ forall o n, where_ x = InMem o n -> n = if w then 16 else 8).
  { intros x Hx. destruct (E3 x Hx) as [w [A [B C]]]. exists w. split; [replace (used x - t)%nat with (S (used x - S t)) by lia; exact A|split; [lia|exact C]]. }
  destruct e as [k|w| |i]; cbn [tstep] in E.
  - injection E as <- <-. exists new. split; [exact E1|]. split; [exact E2|exact SH].
  - destruct (pop_tmpstack reuse lv w st) as [[s2 [b p]]| |] eqn:P; cbn [bind fst snd] in E; try discriminate. injection E as <- <-. destruct (pop_stack _ _ _ _ _ _ _ P) as [r [P1 [P2 P3]]].
    exists (mktmp b t p :: new). cbn [rev]. rewrite <- app_assoc. split; [exact E1|]. split.
    + cbn [lifetimes]. rewrite P1. rewrite P2 in E2. rewrite E2. reflexivity.
    + intros x [<-|Hx]; [|apply SH; exact Hx]. exists w. cbn [used where_]. rewrite Nat.sub_diag. split; [reflexivity|split; [lia|exact P3]].
  - injection E as <- <-. exists new. split; [exact E1|]. split; [|exact SH]. cbn [lifetimes]. cbn [t_stack] in E2. rewrite map_map in E2. exact E2.
  - exists new. assert (l1 = [] /\ map s_born (t_stack s1) = map s_born (t_stack st)) as [-> EB] by (destruct (t_stack st) as [|s r] eqn:ES; injection E as <- <-; [rewrite ES|]; split; reflexivity).
    rewrite EB in E2. split; [exact E1|]. split; [exact E2|exact SH].
Qed.
Lemma run_room reuse lv : 0 <= lv -> forall es t st log, lv + 16 * Z.of_nat (t + length es) <= INT_MAX ->
  (forall s, In s (t_stack st) -> 0 <= s_st s <= 2 * Z.of_nat t) -> lv <= t_peak st <= lv + 16 * Z.of_nat t ->
  lifetimes t es (map s_born (t_stack st)) <> None -> exists r, trun reuse lv t es st log = Ok r.
Proof.
  intros L0. induction es as [|e es IH]; intros t st log LE HS HP HL; [eexists; reflexivity|]. cbn [trun]. cbn [length] in LE.
  assert (IM : INT_MIN <= 0) by (unfold INT_MIN; lia).
  assert (LE' : lv + 16 * Z.of_nat (S t + length es) <= INT_MAX) by lia.
  destruct e as [k|w| |i]; cbn [tstep bind fst snd].
  - apply IH; cbn [t_stack t_peak]; [exact LE'| |lia|exact HL]. intros s [<-|Hs]; [cbn [s_st]; lia|]. specialize (HS s Hs). lia.
  - unfold pop_tmpstack. destruct (t_stack st) as [|s r] eqn:ES; [cbn in HL; congruence|]. cbn [lifetimes map] in HL.
    assert (HL' : lifetimes (S t) es (map s_born r) <> None) by (intros E; rewrite E in HL; apply HL; reflexivity).
    pose proof (HS s (or_introl eq_refl)) as S0. set (sz := if w then 2 else 1). assert (SZ : 1 <= sz <= 2) by (destruct w; cbn; lia).
    assert (IK : 0 <= is_kind (pop_kind s) SL_ST <= 1) by (destruct (pop_kind s); cbn; lia).
    rewrite int_of_in by nia. cbn [bind]. set (d := s_st s + is_kind (pop_kind s) SL_ST * sz) in *. assert (DD : 0 <= d <= 2 * Z.of_nat (S t)) by (subst d; nia).
    set (r' := match r with [] => [] | _ => _ end).
    assert (RB : map s_born r' = map s_born r) by (subst r'; destruct r; reflexivity).
    assert (RS : forall u, In u r' -> 0 <= s_st u <= 2 * Z.of_nat (S t)).
    { intros u Hu. subst r'. destruct r as [|s2 r2]; [destruct Hu|]. destruct Hu as [<-|Hu]; [cbn [s_st]; specialize (HS s2 (or_intror (or_introl eq_refl))); lia|specialize (HS u (or_intror (or_intror Hu))); lia]. }
    destruct (pop_kind s); cbn [bind fst snd]; [apply IH; cbn [t_stack t_peak]; [exact LE'|exact RS|lia|rewrite RB; exact HL']|apply IH; cbn [t_stack t_peak]; [exact LE'|exact RS|lia|rewrite RB; exact HL']|].
    destruct reuse; rewrite int_of_in by lia; cbn [bind fst snd]; (apply IH; cbn [t_stack t_peak]; [exact LE'|exact RS|lia|rewrite RB; exact HL']).
  - apply IH; cbn [t_stack t_peak]; [exact LE'| |lia|]. { intros s Hs. apply in_to_st in Hs as [s' [Hs ->]]. cbn [to_st s_st]. specialize (HS s' Hs). lia. } rewrite map_map. exact HL.
  - destruct (t_stack st) as [|s r] eqn:ES; cbn [bind fst snd].
    + apply IH; [exact LE'|rewrite ES; intros s []|lia|rewrite ES; exact HL].
    + apply IH; cbn [t_stack t_peak]; [exact LE'| |lia|exact HL]. intros u [<-|Hu]; [cbn [s_st]; specialize (HS s (or_introl eq_refl)); lia|specialize (HS u (or_intror Hu)); lia].
Qed.
Theorem temporaries_all reuse lv es : 0 <= lv -> lv + 16 * Z.of_nat (length es) <= INT_MAX -> forall ls, lifetimes 0 es [] = Some ls ->
  exists st log, temporaries reuse lv es = Ok (st, log) /\ map span (rev log) = ls /\
    forall x w, In x log -> nth_error es (used x) = Some (EPop w) -> forall o n, where_ x = InMem o n -> n = if w then 16 else 8.
Proof.
  intros L0 LE ls HL. destruct (run_room reuse lv L0 es 0 (mkts [] lv) []) as [[st log] R]; [lia|intros s []|cbn; lia|cbn [t_stack map]; congruence|].
  exists st, log. split; [exact R|]. destruct (run_lifetimes _ _ _ _ _ _ _ _ R) as [new [E1 [E2 E3]]]. rewrite app_nil_r in E1. subst log. rewrite rev_involutive. cbn [t_stack map] in E2. split; [congruence|].
  intros x w Hx E o n W. apply in_rev in Hx. destruct (E3 x Hx) as [w' [A [_ C]]]. rewrite Nat.sub_0_r in A. assert (w' = w) by congruence. subst. eapply C. exact W.
Qed.
