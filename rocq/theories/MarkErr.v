(** #line directives that are accepted. *)
From Coq Require Import ZArith List Bool.
From Verif Require Import Base IntModel NumModel MarkSpec MarkModel.
Import ListNotations.
Local Open Scope Z_scope.

Theorem line_accepted : forall l f o, preprocess2 f l = Ok o -> forall first last w a, In (Dir first last w a) l ->
  a <> Junk /\ exists t v, convert_pp_number w = Ok (Some (t, v)) /\ kd t = KInt.
Proof.
  induction l as [|i l IH]; intros f o H first last w a I; [destruct I|]. destruct i as [fi la w' a'|n]; cbn [preprocess2] in H.
  - destruct (read_line_marker f fi w' a') as [g| |] eqn:R; try discriminate H. cbn [bind] in H. destruct I as [I|I]; [|exact (IH _ _ H _ _ _ _ I)].
    injection I as -> -> -> ->. unfold read_line_marker in R. destruct (convert_pp_number w) as [[[t v]|]| |]; try discriminate R. cbn [bind] in R.
    destruct (kd t) eqn:K; try discriminate R. split; [intros ->; discriminate R|]. exists t, v. split; [reflexivity|exact K].
  - destruct (display f n); try discriminate H. cbn [bind] in H. destruct (preprocess2 f l) as [o'| |] eqn:P; try discriminate H.
    destruct I as [I|I]; [discriminate I|]. exact (IH _ _ P _ _ _ _ I).
Qed.
