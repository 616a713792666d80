(** Proofs about the names of files. *)
From Coq Require Import ZArith List Bool Lia.
From Verif Require Import Base LexSpec LexModel CliModel CliProofs DrvSpec DrvModel.
Import ListNotations.
Local Open Scope Z_scope.

Lemma bytes_eq_iff : forall a b, bytes_eq a b = true <-> a = b.
Proof.
  intros a b. split; [|intros ->; apply bytes_eq_refl]. revert b. induction a as [|x a IH]; intros [|y b] H; try discriminate H; [reflexivity|].
  cbn [bytes_eq] in H. apply andb_true_iff in H. destruct H as [H1 H2]. apply Z.eqb_eq in H1. rewrite (IH _ H2). congruence.
Qed.
Lemma endswith_iff : forall s e, endswith s e = true <-> exists p, s = p ++ e.
Proof.
  intros s e. unfold endswith. split.
  - intros H. apply andb_true_iff in H. destruct H as [H1 H2]. apply bytes_eq_iff in H2. exists (firstn (length s - length e) s).
    rewrite <- H2 at 2. symmetry. apply firstn_skipn.
  - intros [p ->]. rewrite app_length. apply andb_true_iff. split; [apply Nat.leb_le; lia|]. apply bytes_eq_iff.
    replace (length p + length e - length e)%nat with (length p) by lia. apply skipn_name.
Qed.
Lemma prefix_iff : forall q p, is_prefix q p = true <-> exists r, p = q ++ r.
Proof.
  induction q as [|x q IH]; intros p; [split; [exists p; reflexivity|reflexivity]|]. destruct p as [|y p]; [split; [discriminate|intros [r R]; discriminate R]|].
  cbn [is_prefix]. rewrite andb_true_iff, Z.eqb_eq, IH. split; [intros [-> [r ->]]; exists r; reflexivity|intros [r R]; injection R as -> ->; split; [reflexivity|exists r; reflexivity]].
Qed.
Lemma strstr_some : forall q s r, strstr s q = Some r -> exists p t, s = p ++ r /\ r = q ++ t.
Proof.
  intros q. induction s as [|c s IH]; intros r H; cbn [strstr] in H.
  - destruct (is_prefix q []) eqn:E; [|discriminate]. injection H as <-. apply prefix_iff in E. destruct E as [t E]. exists [], t. split; [reflexivity|exact E].
  - destruct (is_prefix q (c :: s)) eqn:E.
    + injection H as <-. apply prefix_iff in E. destruct E as [t E]. exists [], t. split; [reflexivity|exact E].
    + destruct (IH _ H) as [p [t [A B]]]. exists (c :: p), t. split; [cbn [app]; congruence|exact B].
Qed.
Lemma strstr_first : forall q p t, (forall p' t', p ++ q ++ t = p' ++ q ++ t' -> (length p <= length p')%nat) -> strstr (p ++ q ++ t) q = Some (q ++ t).
Proof.
  intros q p t H. induction p as [|c p IH].
  - cbn [app]. assert (E : is_prefix q (q ++ t) = true) by (apply prefix_iff; exists t; reflexivity). destruct (q ++ t) eqn:Q; cbn [strstr]; rewrite E; reflexivity.
  - cbn [app strstr]. destruct (is_prefix q (c :: p ++ q ++ t)) eqn:E.
    + apply prefix_iff in E. destruct E as [r E]. specialize (H [] r E). cbn [length] in H. lia.
    + apply IH. intros p' t' E'. specialize (H (c :: p') t'). cbn [app length] in H. rewrite E' in H. specialize (H eq_refl). lia.
Qed.

Lemma skip_all : forall p, skip_version p = [] -> exists d vs, forallb digit d = true /\
  (forall x, In x vs -> x <> [] /\ forallb digit x = true) /\ p = d ++ concat (map (cons 46) vs).
Proof.
  induction p as [|c r IH]; intros H; [exists [], []; repeat split; contradiction|]. cbn [skip_version] in H. change Isdigit with digit in H.
  destruct (digit c) eqn:DC; cbn [orb] in H.
  - destruct (IH H) as [d [vs [A [B C]]]]. exists (c :: d), vs. split; [cbn [forallb]; rewrite DC; exact A|]. split; [exact B|cbn [app]; congruence].
  - destruct (Z.eqb_spec c 46) as [->|]; cbn [andb] in H; [|discriminate H]. destruct r as [|y r]; [discriminate H|].
    destruct (digit y) eqn:DY; [|discriminate H]. destruct (IH H) as [d [vs [A [B C]]]].
    assert (ND : d <> []). { intros ->. cbn [app] in C. destruct vs as [|v vs]; [discriminate C|]. cbn [map concat app] in C. injection C as -> _. discriminate DY. }
    exists [], (d :: vs). split; [reflexivity|]. split; [intros x [<-|K]; [split; assumption|exact (B x K)]|]. cbn [map concat app]. rewrite C. reflexivity.
Qed.
Lemma skip_none : forall vs, (forall x, In x vs -> x <> [] /\ forallb digit x = true) -> forall d, forallb digit d = true -> skip_version (d ++ concat (map (cons 46) vs)) = [].
Proof.
  induction vs as [|v vs IH]; intros B d A.
  - cbn [map concat]. rewrite app_nil_r. induction d as [|c d IHd]; [reflexivity|]. cbn [forallb] in A. apply andb_true_iff in A. destruct A as [A1 A2].
    cbn [skip_version]. change Isdigit with digit. rewrite A1. exact (IHd A2).
  - induction d as [|c d IHd].
    + destruct (B v (or_introl eq_refl)) as [NV DV]. cbn [map concat app skip_version]. destruct v as [|y v]; [congruence|]. pose proof DV as DV'. cbn [forallb] in DV'. apply andb_true_iff in DV'. destruct DV' as [DY _].
      cbn [app]. change Isdigit with digit. change (digit 46) with false. change (46 =? 46) with true. cbn [orb andb]. rewrite DY.
      change (y :: v ++ concat (map (cons 46) vs)) with ((y :: v) ++ concat (map (cons 46) vs)). apply IH; [intros x K; apply B; right; exact K|exact DV].
    + cbn [forallb] in A. apply andb_true_iff in A. destruct A as [A1 A2]. cbn [app skip_version]. change Isdigit with digit. rewrite A1. exact (IHd A2).
Qed.

Lemma last_app : forall (p e : list Z) x, last (p ++ e ++ [x]) 0 = x.
Proof. intros. rewrite app_assoc. apply last_last. Qed.

Theorem type_sound : forall o s t, get_file_type o s = Ok t -> names_type o s t.
Proof.
  intros o s t H. unfold get_file_type in H.
  assert (EX : forall e u, endswith s e = true -> In (e, u) extensions -> names_type o s u).
  { intros e u K I0. apply endswith_iff in K. destruct K as [p K]. exact (nt_ext o s p e u I0 K). }
  unfold extensions in EX.
  destruct (endswith s [46; 97]) eqn:E1; [injection H as <-; apply (EX _ _ E1); cbn [In]; tauto|].
  destruct (endswith s [46; 115; 111]) eqn:E2; [injection H as <-; apply (EX _ _ E2); cbn [In]; tauto|].
  destruct (endswith s [46; 111]) eqn:E3; cbn [orb] in H; [injection H as <-; apply (EX _ _ E3); cbn [In]; tauto|].
  destruct (endswith s [46; 108; 111]) eqn:E4; [injection H as <-; apply (EX _ _ E4); cbn [In]; tauto|].
  destruct (endswith s [46; 99]) eqn:E5; [injection H as <-; apply (EX _ _ E5); cbn [In]; tauto|].
  destruct (endswith s [46; 115]) eqn:E6; [injection H as <-; apply (EX _ _ E6); cbn [In]; tauto|].
  destruct (endswith s [46; 83]) eqn:E7; [injection H as <-; apply (EX _ _ E7); cbn [In]; tauto|].
  destruct (o && (bytes_eq s [45] || endswith s [46; 104])) eqn:E8.
  { injection H as <-. apply andb_true_iff in E8. destruct E8 as [O E8]. apply orb_true_iff in E8. destruct E8 as [E8|E8].
    - apply bytes_eq_iff in E8. exact (nt_stdin _ _ O E8).
    - apply endswith_iff in E8. destruct E8 as [p E8]. exact (nt_header _ _ p O E8). }
  destruct (strstr s [46; 115; 111; 46]) as [r|] eqn:S0; [|discriminate H]. destruct (skip_version (skipn 3 r)) eqn:V; [|discriminate H]. injection H as <-.
  destruct (strstr_some _ _ _ S0) as [p [q [A B]]]. subst r. cbn [app skipn] in V. destruct (skip_all _ V) as [d [vs [D [F C]]]].
  destruct d as [|x d]; [|cbn [app] in C; injection C as <- _; discriminate D].
  apply (nt_version o s p (46 :: q)); [exact A|]. exists vs. split; [intros ->; discriminate C|]. split; [exact F|exact C].
Qed.

Lemma version_last : forall v, version v -> exists u x, v = u ++ [x] /\ digit x = true.
Proof.
  intros v [vs [N [F E]]]. destruct (exists_last N) as [ws [w EW]]. subst vs v. destruct (F w ltac:(apply in_or_app; right; left; reflexivity)) as [NW DW].
  destruct (exists_last NW) as [u [x EU]]. subst w. rewrite map_app, concat_app. cbn [map concat]. rewrite app_nil_r.
  exists (concat (map (cons 46) ws) ++ 46 :: u), x. split; [rewrite <- app_assoc; reflexivity|].
  rewrite forallb_app in DW. apply andb_true_iff in DW. destruct DW as [_ DW]. cbn [forallb] in DW. rewrite andb_true_r in DW. exact DW.
Qed.
(** Names that end in different bytes. *)
Lemma ends_other : forall s u x e y w, w = e ++ [y] -> s = u ++ [x] -> x <> y -> endswith s w = false.
Proof.
  intros s u x e y w -> E N. destruct (endswith s (e ++ [y])) eqn:H; [|reflexivity]. apply endswith_iff in H. destruct H as [p H].
  rewrite E, app_assoc in H. apply app_inj_tail in H. destruct H as [_ H]. congruence.
Qed.
Lemma ends_other2 : forall s u z x e y w, w = e ++ [y; x] -> s = u ++ [z; x] -> z <> y -> endswith s w = false.
Proof.
  intros s u z x e y w -> E N. destruct (endswith s (e ++ [y; x])) eqn:H; [|reflexivity]. apply endswith_iff in H. destruct H as [p H]. exfalso.
  change [z; x] with ([z] ++ [x]) in E. change [y; x] with ([y] ++ [x]) in H. rewrite E, !app_assoc in H.
  apply app_inj_tail in H. destruct H as [H _]. apply app_inj_tail in H. destruct H as [_ H]. congruence.
Qed.

Theorem type_complete : forall o s t, names_type o s t ->
  (forall p v p' q, s = p ++ so ++ v -> version v -> s = p' ++ so ++ 46 :: q -> (length p <= length p')%nat) ->
  get_file_type o s = Ok t.
Proof.
  intros o s t H FIRST. unfold get_file_type.
  destruct H as [p e t K E|p v E V|O E|p O E].
  - assert (SELF : forall e', s = p ++ e' -> endswith s e' = true) by (intros e' X; apply endswith_iff; exists p; exact X).
    unfold extensions in K. cbn [In] in K.
    repeat (destruct K as [K|K]; [injection K as <- <-|]); [..|destruct K].
    + rewrite (SELF _ E). reflexivity.
    + rewrite (ends_other s (p ++ [46; 115]) 111 [46] 97 [46; 97] eq_refl) by (first [rewrite E, <- app_assoc; reflexivity|lia]). rewrite (SELF _ E). reflexivity.
    + rewrite (ends_other s (p ++ [46]) 111 [46] 97 [46; 97] eq_refl) by (first [rewrite E, <- app_assoc; reflexivity|lia]).
      rewrite (ends_other2 s p 46 111 [46] 115 [46; 115; 111] eq_refl) by (first [exact E|lia]). rewrite (SELF _ E). reflexivity.
    + rewrite (ends_other s (p ++ [46; 108]) 111 [46] 97 [46; 97] eq_refl) by (first [rewrite E, <- app_assoc; reflexivity|lia]).
      rewrite (ends_other2 s (p ++ [46]) 108 111 [46] 115 [46; 115; 111] eq_refl) by (first [rewrite E, <- app_assoc; reflexivity|lia]). rewrite (SELF _ E), orb_true_r. reflexivity.
    + rewrite (ends_other s (p ++ [46]) 99 [46] 97 [46; 97] eq_refl), (ends_other s (p ++ [46]) 99 [46; 115] 111 [46; 115; 111] eq_refl), (ends_other s (p ++ [46]) 99 [46] 111 [46; 111] eq_refl), (ends_other s (p ++ [46]) 99 [46; 108] 111 [46; 108; 111] eq_refl)
        by (first [rewrite E, <- app_assoc; reflexivity|lia]). rewrite (SELF _ E). reflexivity.
    + rewrite (ends_other s (p ++ [46]) 115 [46] 97 [46; 97] eq_refl), (ends_other s (p ++ [46]) 115 [46; 115] 111 [46; 115; 111] eq_refl), (ends_other s (p ++ [46]) 115 [46] 111 [46; 111] eq_refl), (ends_other s (p ++ [46]) 115 [46; 108] 111 [46; 108; 111] eq_refl), (ends_other s (p ++ [46]) 115 [46] 99 [46; 99] eq_refl)
        by (first [rewrite E, <- app_assoc; reflexivity|lia]). rewrite (SELF _ E). reflexivity.
    + rewrite (ends_other s (p ++ [46]) 83 [46] 97 [46; 97] eq_refl), (ends_other s (p ++ [46]) 83 [46; 115] 111 [46; 115; 111] eq_refl), (ends_other s (p ++ [46]) 83 [46] 111 [46; 111] eq_refl), (ends_other s (p ++ [46]) 83 [46; 108] 111 [46; 108; 111] eq_refl), (ends_other s (p ++ [46]) 83 [46] 99 [46; 99] eq_refl), (ends_other s (p ++ [46]) 83 [46] 115 [46; 115] eq_refl)
        by (first [rewrite E, <- app_assoc; reflexivity|lia]). rewrite (SELF _ E). reflexivity.
  - destruct (version_last v V) as [u [x [EV DX]]].
    assert (EL : s = (p ++ so ++ u) ++ [x]) by (rewrite E, EV, <- !app_assoc; reflexivity).
    assert (RX : 48 <= x <= 57) by (unfold digit in DX; lia).
    rewrite (ends_other s _ x [46] 97 [46; 97] eq_refl EL), (ends_other s _ x [46; 115] 111 [46; 115; 111] eq_refl EL), (ends_other s _ x [46] 111 [46; 111] eq_refl EL), (ends_other s _ x [46; 108] 111 [46; 108; 111] eq_refl EL),
      (ends_other s _ x [46] 99 [46; 99] eq_refl EL), (ends_other s _ x [46] 115 [46; 115] eq_refl EL), (ends_other s _ x [46] 83 [46; 83] eq_refl EL), (ends_other s _ x [46] 104 [46; 104] eq_refl EL) by lia.
    assert (NS : bytes_eq s [45] = false).
    { destruct (bytes_eq s [45]) eqn:Q; [|reflexivity]. apply bytes_eq_iff in Q. rewrite Q in EL. change [45] with ([] ++ [45]) in EL. apply app_inj_tail in EL. destruct EL as [_ EL]. lia. }
    rewrite NS. cbn [orb]. rewrite andb_false_r.
    pose proof V as V0. destruct V0 as [vs [N [F C]]]. destruct vs as [|d vs]; [congruence|]. cbn [map concat app] in C.
    assert (ES : s = p ++ [46; 115; 111; 46] ++ (d ++ concat (map (cons 46) vs))) by (rewrite E, C; reflexivity).
    rewrite ES at 1. rewrite strstr_first.
    + cbn [app skipn]. change (46 :: d ++ concat (map (cons 46) vs)) with ([] ++ concat (map (cons 46) (d :: vs))). rewrite (skip_none _ F [] eq_refl). reflexivity.
    + intros p' t' Q. rewrite <- ES in Q. exact (FIRST p v p' t' E V Q).
  - subst s. rewrite O. reflexivity.
  - rewrite (ends_other s (p ++ [46]) 104 [46] 97 [46; 97] eq_refl), (ends_other s (p ++ [46]) 104 [46; 115] 111 [46; 115; 111] eq_refl), (ends_other s (p ++ [46]) 104 [46] 111 [46; 111] eq_refl), (ends_other s (p ++ [46]) 104 [46; 108] 111 [46; 108; 111] eq_refl), (ends_other s (p ++ [46]) 104 [46] 99 [46; 99] eq_refl), (ends_other s (p ++ [46]) 104 [46] 115 [46; 115] eq_refl), (ends_other s (p ++ [46]) 104 [46] 83 [46; 83] eq_refl)
        by (first [rewrite E, <- app_assoc; reflexivity|lia]).
    assert (SELF : endswith s [46; 104] = true) by (apply endswith_iff; exists p; exact E). rewrite SELF, O, orb_true_r. reflexivity.
Qed.

(** *** Output names *)
Lemma no_in : forall c l, ~ In c l -> existsb (Z.eqb c) l = false.
Proof.
  intros c l N. destruct (existsb (Z.eqb c) l) eqn:E; [|reflexivity]. apply existsb_exists in E. destruct E as [x [K Q]]. apply Z.eqb_eq in Q. subst x. contradiction.
Qed.
Lemma base_plain : forall s, ~ In 47 s -> basename s = s.
Proof. intros [|c s] N; [reflexivity|]. cbn [basename]. rewrite (no_in _ _ N). reflexivity. Qed.
Lemma base_dir : forall dir s, (dir = [] \/ exists d, dir = d ++ [47]) -> ~ In 47 s -> basename (dir ++ s) = s.
Proof.
  intros dir s [->|[d ->]] N; [apply base_plain, N|]. induction d as [|c d IH].
  - cbn [app basename existsb]. change (47 =? 47) with true. cbn [orb]. apply base_plain, N.
  - cbn [app basename]. replace (existsb (Z.eqb 47) (c :: (d ++ [47]) ++ s)) with true; [exact IH|].
    symmetry. apply existsb_exists. exists 47. split; [right; rewrite <- app_assoc; apply in_or_app; right; left; reflexivity|reflexivity].
Qed.
Lemma cut_plain : forall s, ~ In 46 s -> cut_dot s = s.
Proof.
  induction s as [|c s IH]; intros N; [reflexivity|]. cbn [cut_dot]. destruct (Z.eqb_spec c 46) as [->|]; [destruct N; left; reflexivity|].
  cbn [andb]. rewrite IH; [reflexivity|]. intros K. apply N. right. exact K.
Qed.
Lemma cut_ext : forall st e, ~ In 46 e -> cut_dot (st ++ 46 :: e) = st.
Proof.
  intros st e N. induction st as [|c st IH].
  - cbn [app cut_dot]. rewrite (no_in _ _ N). reflexivity.
  - cbn [app cut_dot]. replace (existsb (Z.eqb 46) (st ++ 46 :: e)) with true; [rewrite andb_false_r, IH; reflexivity|].
    symmetry. apply existsb_exists. exists 46. split; [apply in_or_app; right; left; reflexivity|reflexivity].
Qed.
Theorem output_name : forall s extn r, out_name s extn r -> replace_extn s extn = r.
Proof.
  intros s extn r H. unfold replace_extn. destruct H as [dir st e D N1 N2 N3 E|dir st D N1 N2 NE E]; subst s.
  - rewrite base_dir; [rewrite cut_ext by exact N3; reflexivity|exact D|]. intros K. apply in_app_or in K. destruct K as [K|[K|K]]; [exact (N1 K)|lia|exact (N2 K)].
  - rewrite base_dir by assumption. rewrite cut_plain by assumption. reflexivity.
Qed.

Theorem dep_name : forall MF MD o i r, dep_file MF MD o i r -> (forall x, o = Some x -> MD = true -> ~ In 47 x) -> dep_path MF MD o i = r.
Proof.
  intros MF MD o i r H S. destruct H as [f MD o i|dir st e i D N1 N2 N3|i r K|o i|i]; try reflexivity.
  - specialize (S _ eq_refl eq_refl). destruct D as [->|[d ->]].
    + cbn [dep_path app]. apply output_name. apply (on_ext _ _ [] st e); try assumption; [left; reflexivity|reflexivity].
    + destruct S. rewrite <- app_assoc. apply in_or_app. right. left. reflexivity.
  - exact (output_name _ _ _ K).
Qed.
