From Coq Require Import List Bool Arith Lia.
From Verif Require Import Base DeferSpec DeferModel DeferProofs DeferMain.
Import ListNotations.

Lemma plain_defers : (forall x, plain_s x -> defers_s x) /\ (forall l, plain_i l -> defers_i l).
Proof. apply stmt_items_ind; intros; cbn [plain_s plain_i defers_s defers_i] in *; intuition. Qed.

Section Dz.
Variable dz : bool.
Lemma parse_cons : forall ls x r ctx last s, parse_i dz (ICons ls x r) ctx last s =
  (do a <- label_stmt ls ctx s;
   let '(code, cs, s1) := a in
   do y <- parse_s dz x ctx (names_of ls) s1;
   let (n, s2) := y in
   do z <- parse_i dz r ctx (n_jump n) s2;
   let (nr, s3) := z in
   Ok (mkn (n_jump nr) (gseq (gcode code) (gseq (n_gen n) (n_gen nr))) (cs ++ n_cases n ++ n_cases nr), s3)).
Proof. reflexivity. Qed.
Lemma parse_decl : forall ls init es r ctx last s, parse_i dz (IDecl ls init es r) ctx last s =
  (do a <- label_stmt ls ctx s;
   let '(code, cs, s1) := a in
   let last' := match ls with [] => last | _ => false end in
   do z <- parse_i dz r ctx (if init then false else last') (declare es s1);
   let (nr, s2) := z in
   Ok (mkn (n_jump nr) (gseq (gcode (code ++ regs dz es)) (n_gen nr)) (cs ++ n_cases nr), s2)).
Proof. reflexivity. Qed.
Definition keeps (s s' : pst) (n : pnode) : Prop := p_un s' = p_un s /\ p_labels s' = p_labels s /\ n_cases n = [].
Lemma declare_keeps : forall es s, p_un (declare es s) = p_un s /\ p_labels (declare es s) = p_labels s.
Proof. unfold declare. induction es as [|e es IH]; intros s; [split; reflexivity|]. cbn [fold_left]. destruct (IH (new_defr (kind_of e) s)) as [-> ->]. split; reflexivity. Qed.
Lemma leave_keeps : forall d0 n nx s n' s', leave_block_scope dz d0 n nx s = (n', s') -> p_un s' = p_un s /\ p_labels s' = p_labels s /\ n_cases n' = n_cases n.
Proof. intros d0 n nx s n' s' H. unfold leave_block_scope in H. destruct (same_ptr _ _ && _); injection H as <- <-; repeat split. Qed.
Lemma sec_keeps : forall x ctx s n s', (forall ctx names s n s', parse_s dz x ctx names s = Ok (n, s') -> keeps s s' n) ->
  secondary dz (parse_s dz x ctx) [] ctx s = Ok (n, s') -> keeps s s' n.
Proof.
  intros x ctx s n s' H E. unfold secondary in E. cbn [label_stmt bind names_of flat_map] in E.
  destruct (parse_s dz x ctx [] s) as [[nd s2]| |] eqn:EP; try discriminate. cbn [bind] in E. injection E as E.
  apply leave_keeps in E. destruct E as (E1 & E2 & E3). apply H in EP. destruct EP as (P1 & P2 & P3). unfold keeps. rewrite E1, E2, E3, P1, P2, P3. repeat split.
Qed.
Lemma plain_keep : (forall x, plain_s x -> forall ctx names s n s', parse_s dz x ctx names s = Ok (n, s') -> keeps s s' n) /\
  (forall l, plain_i l -> forall ctx last s n s', parse_i dz l ctx last s = Ok (n, s') -> keeps s s' n).
Proof.
  apply stmt_items_ind; cbn [plain_s plain_i].
  - intros n _ ctx names s nd s' H. injection H as <- <-. repeat split.
  - intros _ ctx names s nd s' H. injection H as <- <-. repeat split.
  - intros l _ ctx names s nd s' H. injection H as <- <-. repeat split.
  - intros cont name _ ctx names s nd s' H. cbn [parse_s] in H. destruct (resolve_labeled_jump ctx cont name); try discriminate. injection H as <- <-. repeat split.
  - intros n ls b IH [-> PB] ctx names s nd s' H. cbn [parse_s] in H. destruct (secondary _ _ _ _ _) as [[n1 s1]| |] eqn:E; try discriminate. cbn [bind] in H.
    injection H as <- <-. apply sec_keeps in E; [|apply IH; exact PB]. exact E.
  - intros l IH PL ctx names s nd s' H. change (compound dz (parse_i dz l ctx false) s = Ok (nd, s')) in H. unfold compound in H. destruct (parse_i dz l ctx false s) as [[n1 s1]| |] eqn:E; try discriminate. cbn [bind] in H.
    cbv beta iota zeta in H. injection H as <- <-. apply (IH PL) in E. exact E.
  - intros d ls t IH [-> PB] ctx names s nd s' H. cbn [parse_s] in H. destruct (secondary _ _ _ _ _) as [[n1 s1]| |] eqn:E; try discriminate. cbn [bind] in H.
    injection H as H. apply sec_keeps in E; [|apply IH; exact PB]. apply leave_keeps in H. unfold keeps in *. destruct (declare_keeps d s) as [D1 D2]. cbn [n_cases] in H. intuition congruence.
  - intros d ls t IHt ls' e IHe [[-> PB] [-> PB']] ctx names s nd s' H. cbn [parse_s] in H. destruct (secondary _ _ _ _ (declare d s)) as [[n1 s1]| |] eqn:E; try discriminate. cbn [bind] in H.
    destruct (secondary _ _ _ _ s1) as [[n2 s2]| |] eqn:E2; try discriminate. cbn [bind] in H.
    injection H as H. apply sec_keeps in E; [|apply IHt; exact PB]. apply sec_keeps in E2; [|apply IHe; exact PB']. apply leave_keeps in H. unfold keeps in *. destruct (declare_keeps d s) as [D1 D2]. cbn [n_cases] in H.
    destruct E as (A1 & A2 & A3), E2 as (B1 & B2 & B3), H as (C1 & C2 & C3). rewrite A3, B3 in C3. cbn [app] in C3. intuition congruence.
  - intros; contradiction.
  - intros; contradiction.
  - intros; contradiction.
  - intros ls -> ctx last s n s' H. injection H as <- <-. repeat split.
  - intros ls x IHx r IHr (-> & PX & PR) ctx last s n s' H. rewrite parse_cons in H. cbn [label_stmt bind names_of flat_map] in H.
    destruct (parse_s dz x ctx [] s) as [[n1 s1]| |] eqn:E; try discriminate. cbn [bind] in H. destruct (parse_i dz r ctx (n_jump n1) s1) as [[n2 s2]| |] eqn:E2; try discriminate. cbn [bind] in H.
    injection H as <- <-. apply (IHx PX) in E. apply (IHr PR) in E2. unfold keeps in *. cbn [n_cases]. destruct E as (A1 & A2 & A3), E2 as (B1 & B2 & B3). rewrite A3, B3. cbn [app]. intuition congruence.
  - intros ls init es r IHr (-> & PR) ctx last s n s' H. rewrite parse_decl in H. cbn [label_stmt bind] in H.
    destruct (parse_i dz r _ _ _) as [[n2 s2]| |] eqn:E2; try discriminate. cbn [bind] in H. injection H as <- <-. apply (IHr PR) in E2. unfold keeps in *. cbn [n_cases].
    destruct (declare_keeps es s) as [D1 D2]. destruct E2 as (B1 & B2 & B3). rewrite B3. cbn [app]. intuition congruence.
Qed.

Variable A : list (nat * stk).
Notation GT := (GT dz A). Notation chain_ok := (chain_ok dz A). Notation stack := (stack dz).
Notation POST := (POST dz A). Notation SP := (SP dz A). Notation IP := (IP dz A).

Lemma resolve_in : forall cont name ctx j, resolve_labeled_jump ctx cont name = Ok j -> In j ctx /\ (cont = true -> j_switch j = false).
Proof.
  induction ctx as [|k ctx IH]; intros j H; [discriminate|]. cbn [resolve_labeled_jump] in H.
  assert (R : resolve_labeled_jump ctx cont name = Ok j -> In j (k :: ctx) /\ (cont = true -> j_switch j = false)).
  { intros E. destruct (IH j E). split; [right|]; assumption. }
  assert (K : (cont && j_switch k = false) -> cont = true -> j_switch k = false) by (intros E ->; exact E).
  destruct (cont && j_switch k) eqn:E; [apply R; exact H|]. destruct name as [n|].
  - destruct (existsb _ _); [injection H as <-; split; [left; reflexivity|apply K; reflexivity]|apply R; exact H].
  - injection H as <-. split; [left; reflexivity|apply K; reflexivity].
Qed.
(** Leaving the scope of the declarations of a statement. *)
Lemma wrap_ok : forall ctx s s3 n w p pre nx n' s', POST ctx s s3 n w p (Some (stack (p_cur s3))) -> p_cur s3 = pre ++ p_cur s ->
  chain_ok ctx (p_gotos s3) (p_cur s3) -> NoDup (vlas_of (p_cur s3)) -> leave_block_scope dz (p_cur s) n nx s3 = (n', s') ->
  POST ctx s s' n' w p (Some (stack (p_cur s'))) /\ chain_ok ctx (p_gotos s') (p_cur s') /\ p_cur s' = p_cur s.
Proof.
  intros ctx s s3 n w p pre nx n' s' (P1 & P2 & NL & P3 & P4) EC CO ND E.
  edestruct leave_ok with (1 := P1) (2 := P4) as (K1 & K2 & K3 & K4 & K5); [exact EC|exact CO|exact ND|exact E|].
  split; [|split; [|exact K2]].
  - unfold DeferMain.POST. rewrite K2, K3, K4, K5. split; [exact P1|]. split; [exact P2|]. exists NL. split; [exact P3|exact K1].
  - rewrite K5, K2. rewrite EC in CO. clear - CO. induction pre as [|d pre IH]; [exact CO|]. apply IH. apply CO.
Qed.
Lemma chain_suffix : forall ctx gts pre l, chain_ok ctx gts (pre ++ l) -> chain_ok ctx gts l.
Proof. intros ctx gts. induction pre as [|d pre IH]; intros l CO; [exact CO|]. apply IH. apply CO. Qed.
Lemma jq_le : forall n q, le (jq n q) q.
Proof. intros n q. unfold jq. destruct (n_jump n); [apply le_none|apply le_refl]. Qed.

Lemma main : (forall x, SP x) /\ (forall l, IP l).
Proof.
  apply stmt_items_ind; unfold DeferMain.SP, DeferMain.IP.
  - (* SExpr *) intros e ctx names s n s' w H D ND CO SU CS AC. injection H as <- <-. split; [|split; [exact CO|split; [reflexivity|exists []; reflexivity]]].
    split; [lia|]. split; [apply incl_refl|]. exists []. split; [reflexivity|]. cbn [n_gen n_cases jq n_jump].
    apply gt_code; [reflexivity|]. intros G _. apply T_act; [apply AC; left; reflexivity|apply T_nil, le_refl].
  - (* SReturn *) intros ctx names s n s' w H D ND CO SU CS AC. injection H as <- <-. split; [|split; [exact CO|split; [reflexivity|exists []; reflexivity]]].
    split; [lia|]. split; [apply incl_refl|]. exists []. split; [reflexivity|]. cbn [n_gen n_cases]. unfold jq. cbn [n_jump]. unfold gen_return.
    apply (gt_seq dz A ctx (p_gotos s) (p_un s) (p_un s) (p_un s) [] [] [] [] w) with (q := Some []); try lia.
    + pose proof (gt_leave dz A ctx (p_gotos s) (p_un s) w (p_cur s) []) as Z. rewrite app_nil_r in Z. apply Z; [exact CO|eapply nodup_l; exact ND].
    + apply gt_code; [reflexivity|]. intros G _. apply T_ret, T_nil, le_refl.
  - (* SGoto *) intros l ctx names s n s' w H D ND CO SU CS AC. injection H as <- <-. cbn [p_cur p_gotos].
    split; [|split; [eapply chain_gts; [exact CO|apply incl_tl, incl_refl]|split; [reflexivity|exists []; reflexivity]]].
    split; [apply Nat.le_refl|]. split; [apply incl_tl, incl_refl|]. exists []. split; [reflexivity|]. cbn [n_gen n_cases p_un p_gotos p_cur]. unfold jq. cbn [n_jump].
    intros env c HR. destruct (HR (l, p_cur s) (or_introl eq_refl)) as (u & r & pre & E1 & E2). cbn [fst snd] in *.
    rewrite E2 in CO, ND. apply nodup_l in ND.
    assert (CO' : chain_ok ctx ((l, p_cur s) :: p_gotos s) (pre ++ r)) by (eapply chain_gts; [exact CO|apply incl_tl, incl_refl]).
    destruct (gt_leave dz A ctx _ (p_un s) w pre r CO' ND env c HR) as (a & c1 & La & F1 & F2 & F3 & F4 & F5).
    exists (a ++ [Jmp (LU u)]), c1, La. split; [unfold gen_goto; rewrite E1, E2; unfold defr_gen in F1; rewrite F1; reflexivity|].
    split; [|split; [intros x []|split; [intros x []|]]].
    + rewrite <- (app_nil_r La). apply code_dis; [exact F2|apply code_none; [reflexivity|apply F2]|]. intros k _ [].
    + intros G I CX GO. rewrite E2. eapply T_app; [apply F5; assumption|]. apply T_jmp; [|apply T_nil, le_refl].
      apply (GO (l, p_cur s) (or_introl eq_refl)). exact E1.
  - (* SJump *) intros cont name ctx names s n s' w H D ND CO SU CS AC. cbn [parse_s] in H. destruct (resolve_labeled_jump ctx cont name) as [j| |] eqn:ER; try discriminate.
    cbn [bind] in H. injection H as <- <-. split; [|split; [exact CO|split; [reflexivity|exists []; reflexivity]]].
    split; [lia|]. split; [apply incl_refl|]. exists []. split; [reflexivity|]. cbn [n_gen n_cases]. unfold jq. cbn [n_jump]. unfold gen_jump.
    apply resolve_in in ER. destruct ER as [IJ CJ]. destruct (SU j IJ) as (pre & EC).
    apply (gt_seq dz A ctx (p_gotos s) (p_un s) (p_un s) (p_un s) [] [] [] [] w) with (q := Some (stack (j_end j))); try lia.
    + rewrite EC in *. apply gt_leave; [exact CO|eapply nodup_l; exact ND].
    + apply gt_code; [reflexivity|]. intros G CX. apply T_jmp; [|apply T_nil, le_refl]. destruct (CX j IJ) as [C1 C2].
      destruct cont; [apply C2, CJ; reflexivity|exact C1].
  - (* SDefer *) intros m ls b IH ctx names s n s' w H D ND CO SU CS AC. cbn [parse_s] in H. destruct D as [-> PB].
    destruct (secondary _ _ _ _ _) as [[n1 s1]| |] eqn:E; try discriminate. cbn [bind] in H. injection H as <- <-. cbn [vlas_s cases_s act_s] in *.
    destruct (sec_keeps b ctx s n1 s1 (proj1 plain_keep b PB) E) as (K1 & K2 & K3).
    destruct (sec_ok dz A b ctx [] s n1 s1 w IH E (proj1 plain_defers b PB) ND CO SU (proj1 CS) (proj2 CS) AC) as ((P1 & P2 & NL & P3 & P4) & P5).
    assert (NL = []) as ->.
    { rewrite K2 in P3. destruct NL as [|y NL]; [reflexivity|]. apply (f_equal (@length _)) in P3. rewrite app_length in P3. cbn [length] in P3. lia. }
    rewrite K1, K3 in P4. split; [|split; [|split]].
    + split; [cbn [new_defr p_un]; lia|]. split; [exact P2|]. exists []. split; [exact P3|]. cbn [n_gen n_cases new_defr p_cur p_un]. unfold jq. cbn [n_jump]. rewrite K1, K3, P5.
      apply gt_code; [reflexivity|]. intros G _. apply T_reg. apply T_nil, le_refl.
    + cbn [new_defr p_cur p_gotos DeferProofs.chain_ok d_vla d_kind]. rewrite P5. split; [|split].
      * cbn [map first_vla]. unfold ent at 1. cbn [d_kind first_vla]. destruct (p_cur s) as [|d r]; [reflexivity|]. apply CO.
      * eapply gt_shift. eapply gt_le; [exact P4|apply le_refl|apply jq_le].
      * eapply chain_gts; eassumption.
    + cbn [new_defr p_cur map after]. rewrite P5. reflexivity.
    + eexists [_]. cbn [new_defr p_cur app]. rewrite P5. reflexivity.
  - (* SBlock *) intros l IH ctx names s n s' w H D ND CO SU CS AC. change (compound dz (parse_i dz l ctx false) s = Ok (n, s')) in H. unfold compound in H.
    destruct (parse_i dz l ctx false s) as [[n1 s1]| |] eqn:E; try discriminate. cbn [bind] in H. cbv beta iota zeta in H. injection H as <- <-.
    destruct (IH _ _ _ _ _ _ E D ND CO SU CS AC) as ((P1 & P2 & NL & P3 & P4) & CO1 & ND1 & pre & EC). cbn [set_cur p_cur p_gotos].
    split; [|split; [rewrite EC in CO1; eapply chain_suffix; exact CO1|split; [reflexivity|exists []; reflexivity]]].
    split; [exact P1|]. split; [exact P2|]. exists NL. split; [exact P3|]. unfold jq in *. cbn [n_jump n_gen n_cases set_cur p_cur p_gotos p_un] in *.
    pose proof (fun g q K => gt_seq dz A ctx (p_gotos s1) (p_un s) (p_un s1) (p_un s1) NL [] (n_cases n1) [] w (n_gen n1) g _ _ q P1 (Nat.le_refl _) P4 K) as Z.
    cbn [app] in Z. rewrite app_nil_r in Z. apply Z. destruct (n_jump n1).
    + eapply gt_le; [apply gt_nil|apply le_refl|apply le_none].
    + rewrite EC. apply gt_leave; rewrite <- EC; assumption.
  - (* SIf *) intros d ls t IH ctx names s n s' w H D ND CO SU CS AC. cbn [parse_s] in H. cbn [vlas_s cases_s act_s defers_s] in *.
    destruct (declare_ok dz A ctx (p_gotos s) d s (vlas_s t) CO ND) as ((pre & D1) & D2 & D3 & D4 & D5 & D6 & D7).
    destruct (secondary _ _ _ _ _) as [[n1 s1]| |] eqn:E; try discriminate. cbn [bind] in H. injection H as H. rewrite <- D5 in CS, AC.
    edestruct sec_ok with (1 := IH) (2 := E) (w := w) as ((P1 & P2 & NL & P3 & P4) & P5); [exact D|exact D7|rewrite D4; exact D6|rewrite D1; apply suf_app; exact SU|apply CS|apply CS|exact AC|].
    rewrite D2 in P1, P4. rewrite D3 in P3. rewrite D4 in P2.
    edestruct wrap_ok with (5 := H) (w := w) as (W1 & W2 & W3).
    { split; [exact P1|]. split; [exact P2|]. exists NL. split; [exact P3|]. unfold jq. cbn [n_jump n_gen n_cases]. rewrite P5, D5.
      eapply gt_if1; [exact P1|rewrite <- D5; exact P4|rewrite <- D5; apply jq_le]. }
    { rewrite P5. exact D1. } { rewrite P5. eapply chain_gts; [exact D6|exact P2]. } { rewrite P5. eapply nodup_l. exact D7. }
    split; [exact W1|]. split; [exact W2|]. split; [rewrite W3; reflexivity|exists []; exact W3].
  - (* SIfElse *) intros d ls t IHt ls' e IHe ctx names s n s' w H D ND CO SU CS AC. cbn [parse_s] in H. cbn [vlas_s cases_s act_s defers_s] in *.
    destruct (declare_ok dz A ctx (p_gotos s) d s (vlas_s t ++ vlas_s e) CO ND) as ((pre & D1) & D2 & D3 & D4 & D5 & D6 & D7).
    destruct (secondary _ _ _ _ (declare d s)) as [[n1 s1]| |] eqn:E; try discriminate. cbn [bind] in H.
    destruct (secondary _ _ _ _ s1) as [[n2 s2]| |] eqn:E2; try discriminate. cbn [bind] in H. injection H as H. rewrite <- D5 in CS, AC.
    destruct CS as ((CS1 & CS2) & CS3 & CS4). apply incl_app_inv in AC. destruct AC as [AC1 AC2].
    assert (SU' : suf ctx (p_cur (declare d s))) by (rewrite D1; apply suf_app; exact SU).
    edestruct sec_ok with (1 := IHt) (2 := E) (w := w) as ((P1 & P2 & NL & P3 & P4) & P5); [apply D|rewrite app_assoc in D7; eapply nodup_l; exact D7|rewrite D4; exact D6|exact SU'|exact CS1|exact CS2|exact AC1|].
    rewrite D2 in P1, P4. rewrite D3 in P3. rewrite D4 in P2.
    edestruct sec_ok with (1 := IHe) (2 := E2) (w := w) as ((Q1 & Q2 & NL2 & Q3 & Q4) & Q5); try rewrite P5; [apply D|eapply nodup_drop; exact D7|eapply chain_gts; [exact D6|exact P2]|exact SU'|exact CS3|exact CS4|exact AC2|].
    rewrite P5 in Q4, Q5.
    edestruct wrap_ok with (5 := H) (w := w) as (W1 & W2 & W3).
    { split; [eapply Nat.le_trans; eassumption|]. split; [eapply incl_tran; eassumption|]. exists (NL2 ++ NL). split; [rewrite Q3, P3; apply app_assoc|]. unfold jq. cbn [n_jump n_gen n_cases]. rewrite Q5, D5.
      eapply gt_if2; [exact P1|exact Q1|eapply gt_gts; [rewrite <- D5; exact P4|exact Q2]|rewrite <- D5; apply jq_le|rewrite <- D5; exact Q4|rewrite <- D5; apply jq_le]. }
    { rewrite Q5. exact D1. } { rewrite Q5. eapply chain_gts; [exact D6|]. eapply incl_tran; eassumption. } { rewrite Q5. eapply nodup_l. exact D7. }
    split; [exact W1|]. split; [exact W2|]. split; [rewrite W3; reflexivity|exists []; exact W3].
  - (* SSwitch *) intros d ls b IH ctx names s n s' w H D ND CO SU CS AC. cbn [parse_s] in H. cbn [vlas_s cases_s act_s defers_s] in *.
    destruct (declare_ok dz A ctx (p_gotos s) d s (vlas_s b) CO ND) as ((pre & D1) & D2 & D3 & D4 & D5 & D6 & D7).
    cbv zeta in H. set (s1 := declare d s) in *. set (j := mkj true names (p_un s1) 0 (p_cur s1)) in *.
    destruct (secondary _ _ _ _ _) as [[n1 s2]| |] eqn:E; try discriminate. cbn [bind] in H. destruct (Nat.leb _ _); [|discriminate]. injection H as H. rewrite <- D5 in CS, AC.
    edestruct sec_ok with (1 := IH) (2 := E) (w := Some (stack (p_cur s1))) as ((P1 & P2 & NL & P3 & P4) & P5); cbn [fresh1 p_cur p_gotos];
      [exact D|exact D7|rewrite D4; apply chain_ctx; exact D6| |apply CS|apply CS|exact AC|].
    { intros k [<-|Hk]; [exists []; reflexivity|]. rewrite D1. exact (suf_app ctx _ pre SU k Hk). }
    cbn [fresh1 p_cur p_gotos p_un p_labels] in *. rewrite D3 in P3. rewrite D4 in P2.
    edestruct wrap_ok with (5 := H) (w := w) as (W1 & W2 & W3).
    { split; [rewrite <- D2; lia|]. split; [exact P2|]. exists NL. split; [exact P3|]. unfold jq at 1. cbn [n_jump n_gen n_cases]. rewrite P5. rewrite <- D2.
      eapply gt_switch; [exact P1|exact D5|exact P4|apply jq_le]. }
    { rewrite P5. exact D1. } { rewrite P5. eapply chain_gts; [exact D6|exact P2]. } { rewrite P5. eapply nodup_l. exact D7. }
    split; [exact W1|]. split; [exact W2|]. split; [rewrite W3; reflexivity|exists []; exact W3].
  - (* SFor *) intros init cond inc ls b IH ctx names s n s' w H D ND CO SU CS AC. cbn [parse_s] in H. cbn [vlas_s cases_s act_s defers_s] in *.
    destruct (declare_ok dz A ctx (p_gotos s) init s _ CO ND) as ((pre1 & D1) & D2 & D3 & D4 & D5 & D6 & D7).
    cbv zeta in H. set (s1 := declare init s) in *. set (s2 := match cond with Some d => declare d s1 | None => s1 end) in *.
    assert (DD : (exists pre, p_cur s2 = pre ++ p_cur s1) /\ p_un s2 = p_un s1 /\ p_labels s2 = p_labels s1 /\ p_gotos s2 = p_gotos s1 /\
      stack (p_cur s2) = push_o dz cond (stack (p_cur s1)) /\ chain_ok ctx (p_gotos s) (p_cur s2) /\ NoDup (vlas_of (p_cur s2) ++ vlas_s b)).
    { subst s2. destruct cond as [dc|]; cbn [push_o].
      - apply (declare_ok dz A ctx (p_gotos s) dc s1 (vlas_s b) D6 D7).
      - split; [exists []; reflexivity|]. repeat (split; [reflexivity|]). split; [exact D6|exact D7]. }
    assert (NC : cond = None -> s2 = s1) by (intros E; subst s2; rewrite E; reflexivity).
    clearbody s2. destruct DD as ((pre2 & F1) & F2 & F3 & F4 & F5 & F6 & F7).
    set (j := mkj false names (p_un s2) (S (p_un s2)) (p_cur s2)) in *.
    destruct (secondary _ _ _ _ _) as [[n1 s3]| |] eqn:E; try discriminate. cbn [bind] in H. injection H as H. rewrite <- D5, <- F5 in CS, AC.
    apply incl_app_inv in AC. destruct AC as [AC1 AC2].
    assert (EC : p_cur s2 = (pre2 ++ pre1) ++ p_cur s) by (rewrite F1, D1; apply app_assoc).
    edestruct sec_ok with (1 := IH) (2 := E) (w := w) as ((P1 & P2 & NL & P3 & P4) & P5); cbn [fresh2 p_cur p_gotos];
      [exact D|exact F7|rewrite F4, D4; apply chain_ctx; exact F6| |apply CS|apply CS|exact AC2|].
    { intros k [<-|Hk]; [exists []; reflexivity|]. rewrite EC. exact (suf_app ctx _ _ SU k Hk). }
    cbn [fresh2 p_cur p_gotos p_un p_labels] in *. rewrite F3, D3 in P3. rewrite F4, D4 in P2.
    assert (DF : GT ctx (p_gotos s3) 0 0 [] [] None (match cond with Some _ => defr_gen dz (p_cur s2) (p_cur s1) | None => defr_gen dz [] [] end) (Some (stack (p_cur s2))) (Some (stack (p_cur s1)))).
    { destruct cond as [dc|]; [|rewrite (NC eq_refl); apply gt_nil]. rewrite F1. apply gt_leave; rewrite <- F1; [eapply chain_gts; [exact F6|exact P2]|eapply nodup_l; exact F7]. }
    edestruct wrap_ok with (5 := H) (w := w) as (W1 & W2 & W3).
    { split; [rewrite <- D2, <- F2; lia|]. split; [exact P2|]. exists NL. split; [exact P3|]. unfold jq at 1. cbn [n_jump n_gen n_cases]. rewrite P5. rewrite <- D2, <- F2.
      eapply gt_for; [exact P1|rewrite <- D5; exact F5|exact P4|apply jq_le|rewrite <- D5; exact DF|].
      intros m ->. apply AC1. left. reflexivity. }
    { rewrite P5. exact EC. } { rewrite P5. eapply chain_gts; [exact F6|exact P2]. } { rewrite P5. eapply nodup_l. exact F7. }
    split; [exact W1|]. split; [exact W2|]. split; [rewrite W3; reflexivity|exists []; exact W3].
  - (* SDo *) intros ls b IH ctx names s n s' w H D ND CO SU CS AC. cbn [parse_s] in H. cbn [vlas_s cases_s act_s defers_s] in *.
    set (j := mkj false names (p_un s) (S (p_un s)) (p_cur s)) in *.
    destruct (secondary _ _ _ _ _) as [[n1 s3]| |] eqn:E; try discriminate. cbn [bind] in H. injection H as <- <-.
    edestruct sec_ok with (1 := IH) (2 := E) (w := w) as ((P1 & P2 & NL & P3 & P4) & P5); cbn [fresh2 p_cur p_gotos];
      [exact D|exact ND|apply chain_ctx; exact CO| |apply CS|apply CS|exact AC|].
    { intros k [<-|Hk]; [exists []; reflexivity|]. apply SU. exact Hk. }
    cbn [fresh2 p_cur p_gotos p_un p_labels] in *. split; [|split; [rewrite P5; eapply chain_gts; [exact CO|exact P2]|split; [rewrite P5; reflexivity|exists []; exact P5]]].
    split; [lia|]. split; [exact P2|]. exists NL. split; [exact P3|]. unfold jq at 1. cbn [n_jump n_gen n_cases]. rewrite P5.
    eapply gt_do; [exact P1|exact P4|apply jq_le].
  - (* INil *) intros ls ctx last s n s' w H D ND CO SU CS AC. cbn [parse_i] in H. cbn [vlas_i cases_i] in *.
    destruct (label_stmt ls ctx s) as [[[code cs] s1]| |] eqn:EL; try discriminate. cbn [bind] in H. injection H as <- <-.
    destruct (label_ok dz A ls ctx ctx (p_gotos s1) s code cs s1 w (if last then None else Some (stack (p_cur s))) EL CS) as (L1 & L2 & L3 & NL & L4 & L5).
    { destruct last; [apply le_none|apply le_refl]. }
    rewrite app_nil_r in ND. split; [|split; [rewrite L1, L2; exact CO|split; [rewrite L1; exact ND|exists []; exact L1]]].
    split; [exact L3|]. split; [rewrite L2; apply incl_refl|]. exists NL. split; [exact L4|]. unfold jq. cbn [n_jump n_gen n_cases]. rewrite L1.
    destruct ls; [destruct last; exact L5|exact L5].
  - (* ICons *) intros ls x IHx r IHr ctx last s n s' w H D ND CO SU CS AC. rewrite parse_cons in H. cbn [vlas_i cases_i act_i defers_i] in *. destruct D as [DX DR]. destruct CS as (CL & CX & CR).
    destruct (label_stmt ls ctx s) as [[[code cs] s1]| |] eqn:EL; try discriminate. cbn [bind] in H.
    destruct (parse_s dz x ctx (names_of ls) s1) as [[n1 s2]| |] eqn:EP; try discriminate. cbn [bind] in H.
    destruct (parse_i dz r ctx (n_jump n1) s2) as [[n2 s3]| |] eqn:ER; try discriminate. cbn [bind] in H. injection H as <- <-.
    destruct (label_ok dz A ls ctx ctx (p_gotos s1) s code cs s1 w (if last then None else Some (stack (p_cur s))) EL CL) as (L1 & L2 & L3 & NL & L4 & L5).
    { destruct last; [apply le_none|apply le_refl]. }
    apply incl_app_inv in AC. destruct AC as [AC1 AC2]. rewrite <- L1 in ND, CO, SU, CX, AC1. rewrite <- L2 in CO.
    destruct (IHx _ _ _ _ _ w EP DX ltac:(rewrite app_assoc in ND; eapply nodup_l; exact ND) CO SU CX AC1) as (PX & CO2 & ME & pre & EC).
    destruct (after_stack dz _ _ _ ME) as [AS AV]. rewrite L1 in AS.
    destruct (IHr ctx (n_jump n1) s2 n2 s3 w ER DR) as (PR & CO3 & ND3 & pre3 & EC3).
    { rewrite AV. eapply nodup_drop. exact ND. } { exact CO2. } { rewrite EC. apply suf_app. exact SU. } { rewrite AS. destruct x; exact CR. } { rewrite AS. destruct x; exact AC2. }
    split; [|split; [exact CO3|split; [exact ND3|exists (pre3 ++ pre); rewrite EC3, EC, L1; apply app_assoc]]].
    eapply post_seq with (s1 := s1) (q := Some (stack (p_cur s1))) (n2 := mkn (n_jump n2) (gseq (n_gen n1) (n_gen n2)) (n_cases n1 ++ n_cases n2)); [exact L3|rewrite L2; apply incl_refl|exact L4| | |reflexivity].
    + eapply gt_le; [exact L5|apply le_refl|]. rewrite L1. destruct ls; [destruct last; [apply le_none|apply le_refl]|apply le_refl].
    + destruct PX as (X1 & X2 & NLX & X3 & X4). eapply post_seq with (s1 := s2); [exact X1|exact X2|exact X3|exact X4|exact PR|reflexivity].
  - (* IDecl *) intros ls init es r IHr ctx last s n s' w H D ND CO SU CS AC. rewrite parse_decl in H. cbn [vlas_i cases_i act_i defers_i] in *. destruct CS as (CL & CR).
    destruct (label_stmt ls ctx s) as [[[code cs] s1]| |] eqn:EL; try discriminate. cbn [bind] in H.
    destruct (parse_i dz r _ _ _) as [[n2 s3]| |] eqn:ER; try discriminate. cbn [bind] in H. injection H as <- <-.
    destruct (label_ok dz A ls ctx ctx (p_gotos s1) s code cs s1 w (if last then None else Some (stack (p_cur s))) EL CL) as (L1 & L2 & L3 & NL & L4 & L5).
    { destruct last; [apply le_none|apply le_refl]. }
    rewrite <- L1 in ND, CO, SU. rewrite <- L2 in CO.
    destruct (declare_ok dz A ctx (p_gotos s1) es s1 (vlas_i r) CO ND) as ((pre & D1) & D2 & D3 & D4 & D5 & D6 & D7).
    destruct (IHr ctx _ _ n2 s3 w ER D) as (PR & CO3 & ND3 & pre3 & EC3).
    { exact D7. } { rewrite D4. exact D6. } { rewrite D1. apply suf_app. exact SU. } { rewrite D5, L1. exact CR. } { rewrite D5, L1. exact AC. }
    split; [|split; [exact CO3|split; [exact ND3|exists (pre3 ++ pre); rewrite EC3, D1, L1; apply app_assoc]]].
    eapply post_seq with (s1 := declare es s1); [rewrite D2; exact L3|rewrite D4, L2; apply incl_refl|rewrite D3; exact L4| |exact PR|reflexivity].
    rewrite D2, D4. intros env c HR. destruct (L5 env c HR) as (a & c1 & La & E1 & E2 & E3 & E4 & E5). injection E1 as <- <-.
    exists (code ++ regs dz es), c, La. split; [reflexivity|]. split; [|split; [exact E3|split; [exact E4|]]].
    + rewrite <- (app_nil_r La). apply code_dis; [exact E2|apply code_none; [apply labs_regs|lia]|]. rewrite labs_regs. intros k _ [].
    + intros G I CX GO. specialize (E5 G I CX GO). eapply T_app; [exact E5|].
      assert (TN : T A G None (regs dz es) None).
      { unfold regs. induction (filter (live dz) es) as [|e0 r0 IH0]; cbn [map]; [apply T_nil, le_refl|apply T_dead; [reflexivity|exact IH0]]. }
      assert (TS : T A G (Some (stack (p_cur s))) (regs dz es) (Some (stack (p_cur (declare es s1))))) by (rewrite D5, L1; apply T_regs).
      destruct ls; [destruct last|]; destruct init; try exact TS; [eapply T_post; [exact TN|apply le_none]|exact TN].
Qed.
End Dz.

(** ** The function *)
Lemma on_chain_ok : forall l en, on_chain l en = true -> exists pre r, l = pre ++ r /\ ptr r = en.
Proof.
  induction l as [|d l IH]; intros en H; cbn [on_chain] in H; apply orb_prop in H; destruct H as [H|H].
  - apply same_ptr_spec in H. exists [], []. split; [reflexivity|exact H].
  - discriminate.
  - apply same_ptr_spec in H. exists [], (d :: l). split; [reflexivity|exact H].
  - destruct (IH en H) as (pre & r & -> & E). exists (d :: pre), r. split; [reflexivity|exact E].
Qed.
Theorem discipline : forall dz body u c code, func dz body u c = Ok code -> defers_i body -> cases_i dz None body [] -> NoDup (vlas_i body) ->
  NoDup (labs code) /\ forall st, steps code (code, []) st -> fine code (act_i dz body []) st.
Proof.
  intros dz body u c code H D CS ND. unfold func in H.
  destruct (compound _ _ _) as [[n s]| |] eqn:E; try discriminate. cbn [bind] in H.
  destruct (forallb _ _) eqn:EG; [|discriminate].
  set (env := find_label (p_labels s)) in *. set (A := act_i dz body []).
  assert (EP : parse_s dz (SBlock body) [] [] (mkp [] u 0 [] []) = Ok (n, s)) by exact E.
  assert (ENV : forall x, In x (p_gotos s) -> resolves env x).
  { rewrite forallb_forall in EG. intros x Hx. specialize (EG x Hx). unfold goto_ok in EG. fold env in EG. destruct (env (fst x)) as [[v en]|] eqn:EE; [|discriminate].
    destruct en as [|k en].
    - exists v, [], (snd x). split; [exact EE|symmetry; apply app_nil_r].
    - apply on_chain_ok in EG. destruct EG as (pre & r & E1 & E2). exists v, r, pre. split; [rewrite E2; exact EE|exact E1]. }
  destruct (proj1 (main dz A) (SBlock body) [] [] (mkp [] u 0 [] []) n s None EP D) as ((_ & _ & NL & P3 & P4) & _ & ME & _).
  { exact ND. } { exact Logic.I. } { intros j []. } { exact CS. } { apply incl_refl. }
  cbn [p_labels app p_un p_cur] in *. rewrite app_nil_r in P3.
  destruct (P4 env c ENV) as (a & c' & L & E1 & (K1 & K2 & K3 & K4) & N1 & _ & T1).
  assert (J : n_jump n = false) by (cbn [compound] in E; unfold compound in E; destruct (parse_i _ _ _ _ _) as [[n1 s1]| |]; try discriminate; injection E as <- <-; reflexivity).
  unfold jq in T1. rewrite J in T1.
  rewrite E1 in H. injection H as <-. split; [exact K2|].
  assert (SE : DeferProofs.stack dz (p_cur s) = []) by (unfold stack; rewrite ME; reflexivity). rewrite SE in T1.
  apply (safe A L); [exact K1|exact K2|]. apply T1; [apply incl_refl|intros j []|].
  intros x Hx v r EE. unfold env, find_label in EE. destruct (find _ _) as [y|] eqn:F; [|discriminate]. injection EE as <- EE.
  apply find_some in F. destruct F as [F _]. rewrite P3 in F. rewrite <- (stack_ptr dz _ _ EE). apply N1. exact F.
Qed.
