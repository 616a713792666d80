(** Proofs about #embed. *)
From Coq Require Import String ZArith List Bool Lia.
From Verif Require Import Base EmbedSpec EmbedModel.
Import ListNotations.
Local Open Scope string_scope.
Local Open Scope list_scope.

Lemma equal_tx : forall t s, equal t s = true <-> t = Tx s.
Proof.
  intros [x|v] s; cbn [equal]; [rewrite String.eqb_eq; split; congruence|split; discriminate].
Qed.
Lemma equal_ne : forall t s, t <> Tx s -> equal t s = false.
Proof. intros t s H. destruct (equal t s) eqn:E; [|reflexivity]. apply equal_tx in E. contradiction. Qed.

Lemma skip_balanced : forall a, balanced a -> forall k l, skip_paren k (a ++ l) = skip_paren k l.
Proof.
  induction 1 as [|t a N1 N2 B IH|a b A IHa B IHb]; intros k l; [reflexivity| |].
  - cbn [app skip_paren]. rewrite (equal_ne _ _ N1), (equal_ne _ _ N2), andb_false_r. apply IH.
  - cbn [app]. rewrite <- app_assoc. cbn [skip_paren app]. change (equal LP ")") with false. change (equal LP "(") with true.
    rewrite andb_false_r. rewrite IHa. cbn [skip_paren]. change (equal RP ")") with true. change (equal RP "(") with false.
    cbn [Nat.eqb andb pred]. apply IHb.
Qed.
Lemma split_balanced : forall a, balanced a -> forall k l,
  split_paren2 k (a ++ l) = do r <- split_paren2 k l; Ok (a ++ r).
Proof.
  induction 1 as [|t a N1 N2 B IH|a b A IHa B IHb]; intros k l.
  - cbn [app]. destruct (split_paren2 k l); reflexivity.
  - cbn [app split_paren2]. rewrite (equal_ne _ _ N1), (equal_ne _ _ N2), andb_false_r. rewrite IH.
    destruct (split_paren2 k l); reflexivity.
  - cbn [app]. rewrite <- app_assoc. cbn [split_paren2 app]. change (equal LP ")") with false. change (equal LP "(") with true.
    rewrite andb_false_r. rewrite IHa. cbn [split_paren2]. change (equal RP ")") with true. change (equal RP "(") with false.
    cbn [Nat.eqb andb pred]. rewrite IHb. destruct (split_paren2 k l); cbn [bind]; try reflexivity.
    rewrite <- app_assoc. reflexivity.
Qed.
Lemma skip_param : forall a l, balanced a -> skip_paren 0 (a ++ RP :: l) = Ok l.
Proof. intros a l B. rewrite skip_balanced by exact B. reflexivity. Qed.
Lemma split_param : forall a l, balanced a -> split_paren2 0 (a ++ RP :: l) = Ok a.
Proof. intros a l B. rewrite split_balanced by exact B. cbn. rewrite app_nil_r. reflexivity. Qed.

(** A stored sequence stands for the parameter of that name. *)
Definition agrees (x : option (list tok)) (y : option (list tok)) : Prop :=
  match x, y with
  | None, None => True
  | Some s, Some a => balanced a /\ exists r, s = a ++ RP :: r
  | _, _ => False
  end.
Definition get (n : pname) (q : seqs) : option (list tok) :=
  match n with Limit => limit_seq q | IfEmpty => if_empty_seq q | Prefix => prefix_seq q | Suffix => suffix_seq q end.
Definition unknown (l : list tok) : Prop := match l with [] => True | t :: _ => forall n, t <> Tx (spell n) end.

Definition put (n : pname) (s : list tok) (q : seqs) : seqs :=
  match n with
  | Limit => mkseqs (Some s) (if_empty_seq q) (prefix_seq q) (suffix_seq q)
  | IfEmpty => mkseqs (limit_seq q) (Some s) (prefix_seq q) (suffix_seq q)
  | Prefix => mkseqs (limit_seq q) (if_empty_seq q) (Some s) (suffix_seq q)
  | Suffix => mkseqs (limit_seq q) (if_empty_seq q) (prefix_seq q) (Some s)
  end.
Lemma params_one : forall k q n a l, balanced a ->
  params (S k) q (Tx (spell n) :: LP :: a ++ RP :: l) = params k (put n (a ++ RP :: l) q) l.
Proof.
  intros k q n a l B. destruct n; cbn [params]; cbn [equal spell String.eqb Ascii.eqb Bool.eqb skip_lp];
    change (equal LP "(") with true; cbn [bind]; rewrite (skip_param _ _ B); reflexivity.
Qed.
Lemma get_put : forall n m s q, get n (put m s q) = if pname_dec n m then Some s else get n q.
Proof. intros n m s q. destruct n, m; reflexivity. Qed.

Lemma params_ok : forall ps, Forall (fun p => balanced (snd p)) ps -> NoDup (map fst ps) -> forall rest, unknown rest ->
  forall k q, (length (written ps ++ rest) < k)%nat -> (forall n, In n (map fst ps) -> get n q = None) ->
  exists q', params k q (written ps ++ rest) = Ok (q', rest) /\
    forall n, match lookup n ps with Some a => agrees (get n q') (Some a) | None => get n q' = get n q end.
Proof.
  induction 1 as [|[m a] ps B F IH]; intros ND rest U k q L N.
  - exists q. split; [|reflexivity]. destruct k as [|k]; [lia|]. destruct rest as [|t r]; [reflexivity|].
    cbn [written flat_map app params]. cbn [unknown] in U.
    rewrite (equal_ne t "limit" (U Limit)), (equal_ne t "if_empty" (U IfEmpty)), (equal_ne t "prefix" (U Prefix)), (equal_ne t "suffix" (U Suffix)).
    reflexivity.
  - cbn [snd] in B. inversion ND as [|x y NI ND']; subst.
    assert (W : written ((m, a) :: ps) ++ rest = Tx (spell m) :: LP :: a ++ RP :: (written ps ++ rest)).
    { cbn [written flat_map fst snd app]. rewrite <- !app_assoc. reflexivity. }
    rewrite W in *. cbn [length] in L. rewrite app_length in L. cbn [length] in L. destruct k as [|k]; [lia|].
    rewrite params_one by exact B.
    destruct (IH ND' rest U k (put m (a ++ RP :: (written ps ++ rest)) q)) as (q' & E & Q).
    + lia.
    + intros n H. rewrite get_put. destruct (pname_dec n m) as [->|]; [contradiction|]. apply N. right. exact H.
    + exists q'. split; [exact E|]. intros n. specialize (Q n). cbn [lookup]. destruct (pname_dec n m) as [->|NE].
      * assert (LN : lookup m ps = None).
        { clear - NI. cbn [fst] in NI. induction ps as [|[m' a'] ps IH]; [reflexivity|]. cbn [lookup map fst In] in *.
          destruct (pname_dec m m'); [exfalso; apply NI; left; congruence|]. apply IH. intros H. apply NI. right. exact H. }
        rewrite LN in Q. rewrite Q, get_put. destruct (pname_dec m m); [|contradiction]. split; [exact B|eauto].
      * destruct (lookup n ps); [exact Q|]. rewrite Q, get_put. destruct (pname_dec n m); [contradiction|reflexivity].
Qed.

Lemma opt_split_ok : forall n ps q, (match lookup n ps with Some a => agrees (get n q) (Some a) | None => get n q = None end) ->
  opt_split (get n q) = Ok (body n ps).
Proof.
  intros n ps q A. unfold body. destruct (lookup n ps) as [a|].
  - destruct (get n q) as [s|]; [|destruct A]. destruct A as (B & r & ->). exact (split_param _ _ B).
  - rewrite A. reflexivity.
Qed.

Lemma read_params_ok : forall ev ps rest lim, Forall (fun p => balanced (snd p)) ps -> NoDup (map fst ps) -> unknown rest ->
  (match lookup Limit ps with Some a => exists v, ev a = Ok v /\ lim = Some v | None => lim = None end) ->
  exists q, read_params ev (written ps ++ rest) = Ok (q, match lim with Some v => v | None => 0%Z end, rest) /\
    is_set (limit_seq q) = match lim with Some _ => true | None => false end /\
    (forall n, opt_split (get n q) = Ok (body n ps)).
Proof.
  intros ev ps rest lim B ND U HL. unfold read_params.
  destruct (params_ok ps B ND rest U (S (length (written ps ++ rest))) no_seqs ltac:(lia)) as (q & E & Q).
  { intros [] _; reflexivity. }
  assert (NS : forall n, get n no_seqs = None) by (intros []; reflexivity).
  assert (Q' : forall n, match lookup n ps with Some a => agrees (get n q) (Some a) | None => get n q = None end).
  { intros n. specialize (Q n). destruct (lookup n ps); [exact Q|]. rewrite Q. apply NS. }
  rewrite E. cbn [bind fst snd]. exists q. pose proof (Q' Limit) as QL. cbn [get] in QL.
  destruct (lookup Limit ps) as [a|].
  - destruct HL as (v & EV & ->). destruct (limit_seq q) as [s|]; [|destruct QL]. destruct QL as (BA & r & ->).
    rewrite (split_param _ _ BA). cbn [bind]. rewrite EV. cbn [bind]. split; [reflexivity|]. split; [reflexivity|].
    intros n. apply opt_split_ok, Q'.
  - subst lim. rewrite QL. split; [reflexivity|]. split; [reflexivity|]. intros n. apply opt_split_ok, Q'.
Qed.

Lemma read_all : forall data v, read_bytes false v data = data.
Proof. induction data as [|b d IH]; intros v; cbn [read_bytes negb orb]; [reflexivity|]. rewrite IH. reflexivity. Qed.
Lemma read_some : forall data v, (0 <= v)%Z -> read_bytes true v data = take (Some v) data.
Proof.
  unfold take. induction data as [|b d IH]; intros v V.
  - cbn [read_bytes length]. destruct (Z.of_nat 0 <=? v)%Z; [reflexivity|]. rewrite firstn_nil. reflexivity.
  - cbn [read_bytes negb orb]. destruct (Z.ltb_spec 0 v).
    + rewrite IH by lia. cbn [length].
      replace (Z.of_nat (length d) <=? v - 1)%Z with (Z.of_nat (S (length d)) <=? v)%Z
        by (apply eq_true_iff_eq; rewrite !Z.leb_le; lia).
      destruct (Z.of_nat (S (length d)) <=? v)%Z; [reflexivity|].
      replace (Z.to_nat v) with (S (Z.to_nat (v - 1))) by lia. reflexivity.
    + assert (v = 0)%Z by lia. subst v. cbn [length]. destruct (Z.leb_spec (Z.of_nat (S (length d))) 0); [lia|]. reflexivity.
Qed.
Lemma read_take : forall lim data, (match lim with Some v => 0 <= v | None => True end)%Z ->
  read_bytes (match lim with Some _ => true | None => false end) (match lim with Some v => v | None => 0%Z end) data = take lim data.
Proof. intros [v|] data V; [apply read_some; exact V|apply read_all]. Qed.

Lemma tokens_commas : forall d, tokens true d = commas d.
Proof.
  destruct d as [|b d]; [reflexivity|]. revert b. induction d as [|c d IH]; intros b; [reflexivity|].
  change (tokens true (b :: c :: d)) with (Num b :: Tx "," :: tokens true (c :: d)). rewrite IH. reflexivity.
Qed.
Lemma commas_nil : forall d, commas d = [] -> d = [].
Proof. intros [|b [|c d]] E; [reflexivity|discriminate E|discriminate E]. Qed.

Theorem embed_ok : forall ev ps lim data cont, Forall (fun p => balanced (snd p)) ps -> NoDup (map fst ps) ->
  (match lookup Limit ps with Some a => exists v, ev a = Ok v /\ (0 <= v)%Z /\ lim = Some v | None => lim = None end) ->
  embed_file ev cont (written ps) (Some data) = Ok (expansion ps lim data ++ cont) /\
  has_embed ev (written ps) (Some data) = Ok (has_value lim data).
Proof.
  intros ev ps lim data cont B ND HL.
  assert (HV : (match lim with Some v => 0 <= v | None => True end)%Z).
  { destruct (lookup Limit ps); [destruct HL as (v & _ & V & ->); exact V|subst lim; exact Logic.I]. }
  destruct (read_params_ok ev ps [] lim B ND Logic.I) as (q & E & S & Q).
  { destruct (lookup Limit ps); [|exact HL]. destruct HL as (v & EV & _ & ->). eauto. }
  rewrite app_nil_r in E. unfold embed_file, has_embed. rewrite E. cbn [bind]. rewrite S, (read_take _ _ HV), tokens_commas. split.
  - unfold expansion. pose proof (Q IfEmpty) as QE. pose proof (Q Prefix) as QP. pose proof (Q Suffix) as QS. cbn [get] in QE, QP, QS.
    rewrite QE, QP, QS. cbn [bind]. destruct (take lim data) as [|b d]; [reflexivity|].
    destruct (commas (b :: d)) as [|c l] eqn:C; [apply commas_nil in C; discriminate C|]. rewrite <- !app_assoc. reflexivity.
  - unfold has_value, take. destruct lim as [v|].
    + destruct data as [|b d]; cbn [orb andb].
      * cbn [length]. destruct (Z.of_nat 0 <=? v)%Z; [reflexivity|]. rewrite firstn_nil. reflexivity.
      * destruct (Z.eqb_spec v 0) as [->|NZ]; [reflexivity|]. destruct (Z.of_nat (length (b :: d)) <=? v)%Z; [reflexivity|].
        replace (Z.to_nat v) with (Datatypes.S (Z.to_nat (v - 1))) by lia. reflexivity.
    + destruct data; reflexivity.
Qed.

Theorem embed_missing : forall ev ps lim cont, Forall (fun p => balanced (snd p)) ps -> NoDup (map fst ps) ->
  (match lookup Limit ps with Some a => exists v, ev a = Ok v /\ lim = Some v | None => lim = None end) ->
  embed_file ev cont (written ps) None = Abort /\ has_embed ev (written ps) None = Ok 0%Z.
Proof.
  intros ev ps lim cont B ND HL. destruct (read_params_ok ev ps [] lim B ND Logic.I HL) as (q & E & _ & _).
  rewrite app_nil_r in E. unfold embed_file, has_embed. rewrite E. split; reflexivity.
Qed.
Theorem embed_unknown : forall ev ps lim cont t rest file, Forall (fun p => balanced (snd p)) ps -> NoDup (map fst ps) ->
  (match lookup Limit ps with Some a => exists v, ev a = Ok v /\ lim = Some v | None => lim = None end) ->
  (forall n, t <> Tx (spell n)) ->
  embed_file ev cont (written ps ++ t :: rest) file = Abort /\ has_embed ev (written ps ++ t :: rest) file = Ok 0%Z.
Proof.
  intros ev ps lim cont t rest file B ND HL U. destruct (read_params_ok ev ps (t :: rest) lim B ND U HL) as (q & E & _ & _).
  unfold embed_file, has_embed. rewrite E. split; reflexivity.
Qed.
