(** Proofs for AsmModel.v: the places of operands. *)
From Coq Require Import Ascii String ZArith List Bool Lia Arith.
From Verif Require Import AsmSpec AsmModel.
Import ListNotations.
Local Open Scope string_scope.
Local Open Scope nat_scope.
Local Open Scope list_scope.

(** * Lists *)
Lemma set_nth_length : forall A i (a : A) l, length (set_nth i a l) = length l.
Proof. intros A i a l. revert i. induction l; intros [|i]; cbn [set_nth length]; auto. Qed.
Lemma set_nth_eq : forall A i (a : A) l, i < length l -> nth_error (set_nth i a l) i = Some a.
Proof. intros A i a l. revert i. induction l; intros [|i] H; cbn [length set_nth nth_error] in *; try lia; auto. apply IHl. lia. Qed.
Lemma set_nth_neq : forall A i j (a : A) l, j <> i -> nth_error (set_nth i a l) j = nth_error l j.
Proof. intros A i j a l. revert i j. induction l; intros [|i] [|j] H; cbn [set_nth nth_error]; auto; try lia. Qed.
Lemma nth_lt : forall A (l : list A) i a, nth_error l i = Some a -> i < length l.
Proof. intros A l i a H. apply nth_error_Some. rewrite H. discriminate. Qed.
Lemma set_nth_map : forall A B (f : A -> B) i a b l, nth_error l i = Some b -> f a = f b -> map f (set_nth i a l) = map f l.
Proof. intros A B f i a b l. revert i. induction l; intros [|i] H E; cbn [set_nth map nth_error] in *; try discriminate; f_equal; [congruence|eauto]. Qed.
Lemma nth_set : forall A i j (a b : A) l, nth_error (set_nth i a l) j = Some b -> (j = i /\ b = a) \/ (j <> i /\ nth_error l j = Some b).
Proof.
  intros A i j a b l H. destruct (Nat.eq_dec j i) as [->|N].
  - left. split; [reflexivity|]. pose proof (nth_lt _ _ _ _ H) as L. rewrite set_nth_length in L. rewrite set_nth_eq in H by exact L. congruence.
  - right. rewrite set_nth_neq in H by exact N. auto.
Qed.
Lemma mem_in : forall r l, mem r l = true <-> In r l.
Proof.
  intros r l. unfold mem. rewrite existsb_exists. split.
  - intros [x [I E]]. apply Nat.eqb_eq in E. subst. exact I.
  - intros I. exists r. split; [exact I|apply Nat.eqb_refl].
Qed.
Lemma mem_not : forall r l, mem r l = false <-> ~ In r l.
Proof. intros r l. rewrite <- mem_in. destruct (mem r l); split; intros; try discriminate; auto. contradiction H; reflexivity. Qed.
Ltac bi H := match type of H with bind ?e _ = Ok _ => let E := fresh "E" in destruct e eqn:E; cbn [bind] in H; [|discriminate H|discriminate H] end.

(** * Letters *)
Definition one (l : list ascii) (a : ascii) : bool := existsb (Ascii.eqb a) l.
Definition Lmem := ["m"; "o"; "g"; "X"]%char. Definition Lgp := ["r"; "q"; "g"; "X"]%char. Definition Lfp := ["x"; "v"; "X"]%char.
Definition Lpin := ["a"; "b"; "c"; "d"; "S"; "D"; "t"; "u"]%char. Definition Lnum := ["n"; "i"; "g"; "X"; "I"; "J"; "K"; "L"; "M"; "N"; "O"; "P"]%char.
Record step (f f' : flags) (dig : bool) (a : ascii) : Prop := {
  s_early : f_early f' = f_early f || Ascii.eqb "&"%char a;
  s_mem : f_mem f' = true -> f_mem f = true \/ one Lmem a = true;
  s_gp : f_gp f' = true -> f_gp f = true \/ one Lgp a = true;
  s_hb : f_hb f' = true -> f_hb f = true \/ one ["Q"%char] a = true;
  s_leg : f_leg f' = true -> f_leg f = true \/ one ["R"%char] a = true;
  s_free : f_free f' = true -> f_free f = true \/ one ["U"%char] a = true;
  s_num : f_num f' = true -> f_num f = true \/ one Lnum a = true;
  s_sym : f_sym f' = true -> f_sym f = true \/ one ["i"%char] a = true;
  s_fp : f_fp f' = true -> f_fp f = true \/ one Lfp a = true;
  s_x87 : f_x87 f' = true -> f_x87 f = true \/ one ["f"%char] a = true;
  s_reg : (f_reg f' = f_reg f /\ one Lpin a = false) \/ (class a (f_reg f') = true /\ one Lpin a = true /\ f_reg f' <> 0);
  s_idx : f_idx f' = match digit a with Some d => Some match f_idx f with Some k => if dig then 10 * k + d else d | None => d end | None => f_idx f end }.
Lemma fixed_ok : forall f r f', fixed_reg f r = Ok f' -> f' = Flags (f_early f) (f_mem f) (f_gp f) (f_hb f) (f_leg f) (f_free f) (f_num f) (f_sym f) (f_fp f) (f_x87 f) r (f_idx f) /\ (f_reg f = 0 \/ f_reg f = r).
Proof.
  intros f r f' H. unfold fixed_reg in H. destruct (Nat.eqb (f_reg f) 0 || Nat.eqb (f_reg f) r) eqn:E; [|discriminate H]. injection H as <-.
  split; [reflexivity|]. apply orb_true_iff in E. rewrite !Nat.eqb_eq in E. exact E.
Qed.
Lemma letter1_ok : forall f dig a f', letter1 f dig a = Ok f' -> step f f' dig a.
Proof.
  intros [e m g h l r n s x t rg i] dig a f' H.
  destruct a as [[] [] [] [] [] [] [] []];
    lazy beta iota zeta delta [letter1 digit nat_of_ascii N_of_ascii N_of_digits] in H; cbn in H; try discriminate H;
    try (apply fixed_ok in H as [-> _]); try (injection H as <-);
    (constructor; cbn; auto; try (rewrite ?orb_true_r, ?orb_false_r; reflexivity); try (right; repeat split; auto; discriminate)).
Qed.

Record reads (f f' : flags) (dig : bool) (l : list ascii) : Prop := {
  r_early : f_early f' = f_early f || existsb (Ascii.eqb "&"%char) l;
  r_mem : f_mem f' = true -> f_mem f = true \/ exists a, In a l /\ one Lmem a = true;
  r_gp : f_gp f' = true -> f_gp f = true \/ exists a, In a l /\ one Lgp a = true;
  r_hb : f_hb f' = true -> f_hb f = true \/ exists a, In a l /\ one ["Q"%char] a = true;
  r_leg : f_leg f' = true -> f_leg f = true \/ exists a, In a l /\ one ["R"%char] a = true;
  r_free : f_free f' = true -> f_free f = true \/ exists a, In a l /\ one ["U"%char] a = true;
  r_num : f_num f' = true -> f_num f = true \/ exists a, In a l /\ one Lnum a = true;
  r_sym : f_sym f' = true -> f_sym f = true \/ exists a, In a l /\ one ["i"%char] a = true;
  r_fp : f_fp f' = true -> f_fp f = true \/ exists a, In a l /\ one Lfp a = true;
  r_x87 : f_x87 f' = true -> f_x87 f = true \/ exists a, In a l /\ one ["f"%char] a = true;
  r_reg : (f_reg f' = f_reg f /\ forall a, In a l -> one Lpin a = false) \/ ((exists a, In a l /\ class a (f_reg f') = true /\ one Lpin a = true) /\ f_reg f' <> 0);
  r_idx : forall k, f_idx f' = Some k -> In k (numbers (if dig then f_idx f else None) l) \/ (dig = false /\ f_idx f = Some k) }.
Lemma letters_ok : forall l f dig f', letters f dig l = Ok f' -> reads f f' dig l.
Proof.
  induction l as [|a l IH]; intros f dig f' H; cbn [letters] in H.
  - injection H as <-. constructor; auto; try (rewrite orb_false_r; reflexivity).
    + left. split; [reflexivity|]. intros a [].
    + intros k H. destruct dig; [left; cbn [numbers]; rewrite H; left; reflexivity|right; auto].
  - bi H. apply letter1_ok in E. apply IH in H. destruct E as [S1 S2 S3 S4 S5 S6 S7 S8 S9 S10 S11 S12]. destruct H as [H1 H2 H3 H4 H5 H6 H7 H8 H9 H10 H11 H12].
    constructor; [|intros X|intros X|intros X|intros X|intros X|intros X|intros X|intros X|intros X| |intros X].
    + rewrite H1, S1. cbn [existsb]. rewrite orb_assoc. reflexivity.
    + destruct (H2 X) as [Y|[b [I O]]]; [destruct (S2 Y) as [Z|Z]; [left; exact Z|right; exists a; split; [left; reflexivity|exact Z]]|right; exists b; split; [right; exact I|exact O]].
    + destruct (H3 X) as [Y|[b [I O]]]; [destruct (S3 Y) as [Z|Z]; [left; exact Z|right; exists a; split; [left; reflexivity|exact Z]]|right; exists b; split; [right; exact I|exact O]].
    + destruct (H4 X) as [Y|[b [I O]]]; [destruct (S4 Y) as [Z|Z]; [left; exact Z|right; exists a; split; [left; reflexivity|exact Z]]|right; exists b; split; [right; exact I|exact O]].
    + destruct (H5 X) as [Y|[b [I O]]]; [destruct (S5 Y) as [Z|Z]; [left; exact Z|right; exists a; split; [left; reflexivity|exact Z]]|right; exists b; split; [right; exact I|exact O]].
    + destruct (H6 X) as [Y|[b [I O]]]; [destruct (S6 Y) as [Z|Z]; [left; exact Z|right; exists a; split; [left; reflexivity|exact Z]]|right; exists b; split; [right; exact I|exact O]].
    + destruct (H7 X) as [Y|[b [I O]]]; [destruct (S7 Y) as [Z|Z]; [left; exact Z|right; exists a; split; [left; reflexivity|exact Z]]|right; exists b; split; [right; exact I|exact O]].
    + destruct (H8 X) as [Y|[b [I O]]]; [destruct (S8 Y) as [Z|Z]; [left; exact Z|right; exists a; split; [left; reflexivity|exact Z]]|right; exists b; split; [right; exact I|exact O]].
    + destruct (H9 X) as [Y|[b [I O]]]; [destruct (S9 Y) as [Z|Z]; [left; exact Z|right; exists a; split; [left; reflexivity|exact Z]]|right; exists b; split; [right; exact I|exact O]].
    + destruct (H10 X) as [Y|[b [I O]]]; [destruct (S10 Y) as [Z|Z]; [left; exact Z|right; exists a; split; [left; reflexivity|exact Z]]|right; exists b; split; [right; exact I|exact O]].
    + destruct H11 as [[A B]|[[b [I [C P]]] N]].
      * rewrite A. destruct S11 as [[C D]|[C [D N]]].
        -- left. split; [exact C|]. intros b [->|I]; [exact D|exact (B b I)].
        -- right. split; [exists a; split; [left; reflexivity|split; [exact C|exact D]]|exact N].
      * right. split; [exists b; split; [right; exact I|split; [exact C|exact P]]|exact N].
    + intros K. specialize (H12 X K). rewrite S12 in H12. cbn [numbers]. destruct (digit a) as [d|].
      * left. destruct H12 as [H12|[H12 _]]; [|discriminate H12]. destruct dig; destruct (f_idx f); exact H12.
      * destruct H12 as [H12|[_ H12]]; [left; apply in_or_app; right; exact H12|]. destruct dig; [left; apply in_or_app; left; rewrite H12; left; reflexivity|right; auto].
Qed.
