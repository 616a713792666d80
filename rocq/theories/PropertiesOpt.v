(** C74: the arguments of options. *)
From Coq Require Import ZArith List Bool Lia.
From Verif Require Import Base OptSpec OptModel OptProofs.
Import ListNotations.
Local Open Scope Z_scope.

(** What is pushed for -Wl, and -Wa, is the texts between the commas that are not empty, in order. *)
Theorem C74_comma : forall str l s, joined l s -> comma_arg (str ++ s) str = Ok (Some (nonempty l)).
Proof. exact comma_ok. Qed.
Print Assumptions C74_comma.
(** Every text is texts with commas between them. *)
Theorem C74_comma_total : forall s, exists l, joined l s.
Proof. exact joined_total. Qed.
Print Assumptions C74_comma_total.
Theorem C74_comma_other : forall arg str, (forall s, arg <> str ++ s) -> comma_arg arg str = Ok None.
Proof. exact comma_other. Qed.
Print Assumptions C74_comma_other.

(** Options with a value: the next argument or the rest of the same one, and nothing else. *)
Theorem C74_value : forall pre args opt v used, has_value opt args v used ->
  take_arg_s (pre ++ args) (length pre) opt = Ok (Some (v, length pre + used - 1)%nat).
Proof. exact take_ok. Qed.
Print Assumptions C74_value.
Theorem C74_value_sound : forall pre args opt v j, take_arg_s (pre ++ args) (length pre) opt = Ok (Some (v, j)) ->
  exists used, has_value opt args v used /\ j = (length pre + used - 1)%nat.
Proof. exact take_sound. Qed.
Print Assumptions C74_value_sound.
Theorem C74_value_missing : forall pre opt, take_arg_s (pre ++ [opt]) (length pre) opt = Abort.
Proof. exact take_missing. Qed.
Print Assumptions C74_value_missing.
Theorem C74_value_bounds : forall argv i opt, (i < length argv)%nat ->
  take_arg_s argv i opt <> UB /\ (forall v j, take_arg_s argv i opt = Ok (Some (v, j)) -> (j < length argv)%nat).
Proof. exact take_bounds. Qed.
Print Assumptions C74_value_bounds.

(** -Wl,a,bc pushes a and bc; -L d and -Ld have the value d. *)
Example C74_example :
  comma_arg [45; 87; 108; 44; 97; 44; 98; 99] [45; 87; 108; 44] = Ok (Some [[97]; [98; 99]]) /\
  take_arg_s [[120]; [45; 76]; [100]] 1 [45; 76] = Ok (Some ([100], 2%nat)) /\
  take_arg_s [[120]; [45; 76; 100]] 1 [45; 76] = Ok (Some ([100], 1%nat)) /\
  take_arg_s [[120]; [45; 73; 100]] 1 [45; 76] = Ok None.
Proof. vm_compute. repeat split. Qed.

(** Empty texts between commas are lost: -Wl,a,,b is the three arguments a, the empty one and b. *)
Theorem C74_empty_refuted : exists str l s, joined l s /\ comma_arg (str ++ s) str <> Ok (Some l).
Proof.
  exists [45; 87; 108; 44], [[97]; []; [98]], [97; 44; 44; 98]. split; [|vm_compute; discriminate].
  apply (j_more [97] [[]; [98]] [44; 98]); [cbn; lia|]. apply (j_more [] [[98]] [98]); [cbn; lia|]. constructor. cbn; lia.
Qed.
Print Assumptions C74_empty_refuted.
