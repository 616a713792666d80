(** The translation units of LinkCases.v. *)
From Coq Require Import Ascii String ZArith List Bool Lia.
From Verif Require Import LinkSpec LinkCases.
Import ListNotations.
Local Open Scope string_scope.
Local Open Scope Z_scope.
Local Open Scope list_scope.

Ltac each H := vm_compute in H; repeat (destruct H as [<- | H]); try (destruct H).
Ltac v1 := intros f g Hf Hg; each Hf; each Hg; cbn; intro; try discriminate; split; reflexivity.
Ltac v2 := intros f g h s t c d k i u b m Hf Hg; each Hf; each Hg; cbn; intros N W1 W2; try discriminate; injection W1; injection W2; intros; subst; split; try reflexivity; try (apply co_refl); apply co_arr; auto.
Ltac v3 := let x := fresh "x" in intro x; unfold about;     match goal with |- context [facts ?p] => let l := eval vm_compute in (facts p) in change (facts p) with l end; cbn [filter f_name];     repeat match goal with |- context [String.eqb ?n x] => destruct (String.eqb_spec n x); [subst x; vm_compute; lia |] end; vm_compute; lia.
Ltac v4 := intros f h s n t c d Hf W; each Hf; cbn in W; try discriminate; injection W; intros; subst; reflexivity.
Ltac v5 := intros f h s t c d Hf W; each Hf; cbn in W; try discriminate; injection W; intros; subst; reflexivity.
Ltac v6 := split; [vm_compute; repeat (apply NoDup_cons; [cbn; intuition discriminate|]); apply NoDup_nil |             intros i s a H; vm_compute in H; repeat (destruct H as [H | H]); try contradiction; injection H; intros; lia].
Ltac v7 := intros x s c t d u H; cbn in H; repeat (destruct H as [H | H]); try contradiction; try discriminate; injection H; intros; subst; (split; [reflexivity|]); try (left; reflexivity); right; eexists _, _; split; reflexivity.
Ltac v8 := intros f h s t c d Hf W; each Hf; cbn in W; try discriminate; injection W; intros; subst; vm_compute; discriminate.
Ltac v9 := intros x st ex il b H; cbn in H; repeat (destruct H as [H | H]); try contradiction; try discriminate; injection H; intros; subst; reflexivity.
Ltac v10 := intros x c t H; cbn in H; repeat (destruct H as [H | H]); try contradiction; discriminate.
Ltac v11 := intros k x o H; vm_compute in H; repeat (destruct H as [H | H]); try contradiction; injection H; intros; subst; discriminate.
Ltac valid := constructor; [ v1 | v2 | v3 | v4 | v5 | v6 | v7 | v8 | v9 | v10 | v11 ].
Lemma good_valid : valid good. Proof. valid. Qed.
Lemma shorter_valid : valid shorter. Proof. valid. Qed.
Lemma later_valid : valid later. Proof. valid. Qed.
Lemma made_global_valid : valid made_global. Proof. valid. Qed.
Lemma only_static_valid : valid only_static. Proof. valid. Qed.
Lemma unaligned_valid : valid unaligned. Proof. valid. Qed.
Lemma hidden_object_valid : valid hidden_object. Proof. valid. Qed.
Lemma hidden_function_valid : valid hidden_function. Proof. valid. Qed.
Lemma open_type_valid : valid open_type. Proof. valid. Qed.
Lemma good_handled : handled good.
Proof.
  constructor.
  - intros f g h s t c d k i u b m Hf Hg. each Hf; each Hg; cbn; intros N F W1 NX O W2; try discriminate; injection W1; injection W2; intros; subst; try discriminate; try congruence; reflexivity.
  - intros f h s t c d Hf W. each Hf; cbn in W; try discriminate; injection W; intros; subst; try discriminate; try congruence; reflexivity.
  - intros x f l h s t c d. unfold about. let l := eval vm_compute in (facts good) in change (facts good) with l. cbn [filter f_name].
    repeat match goal with |- context [String.eqb ?n x] => destruct (String.eqb_spec n x); [subst x; vm_compute; intros H W; injection H; intros; subst; cbn in W; try discriminate; injection W; intros; subst; reflexivity |] end; discriminate.
  - intros x f l i b g j c. unfold about. let l := eval vm_compute in (facts good) in change (facts good) with l. cbn [filter f_name].
    repeat match goal with |- context [String.eqb ?n x] => destruct (String.eqb_spec n x); [subst x; vm_compute; intros H W; injection H; intros; subst; cbn in W; try discriminate; injection W; intros; subst; try reflexivity; try discriminate; try contradiction |] end; try discriminate.
  - intros f Hf. each Hf; cbn; intro; try discriminate; exact Logic.I.
Qed.
