(** C72: the driver tells files apart by their names. *)
From Coq Require Import ZArith List Bool Lia.
From Verif Require Import Base LexSpec DrvSpec DrvModel DrvProofs.
Import ListNotations.
Local Open Scope Z_scope.

(** A name is only taken for a kind of file it is a name of. *)
Theorem C72_sound : forall opt_E s t, get_file_type opt_E s = Ok t -> names_type opt_E s t.
Proof. exact type_sound. Qed.
Print Assumptions C72_sound.

(** Every name of a kind of file is taken for it, if no ".so." stands before the one of the version. *)
Theorem C72_complete : forall opt_E s t, names_type opt_E s t ->
  (forall p v p' q, s = p ++ so ++ v -> version v -> s = p' ++ so ++ 46 :: q -> (length p <= length p')%nat) ->
  get_file_type opt_E s = Ok t.
Proof. exact type_complete. Qed.
Print Assumptions C72_complete.

(** The default name of an output is the last component without its extension, with the new one. *)
Theorem C72_output_name : forall s extn r, out_name s extn r -> replace_extn s extn = r.
Proof. exact output_name. Qed.
Print Assumptions C72_output_name.

(** l.so.1.20 *)
Definition ex_lib : list Z := [108; 46; 115; 111; 46; 49; 46; 50; 48].
Example C72_ex : names_type false ex_lib FILE_DSO /\
  (forall p v p' q, ex_lib = p ++ so ++ v -> version v -> ex_lib = p' ++ so ++ 46 :: q -> (length p <= length p')%nat) /\
  get_file_type false ex_lib = Ok FILE_DSO /\ get_file_type true [120; 46; 104] = Ok FILE_C /\ get_file_type false [120; 46; 104] = Abort.
Proof.
  split.
  { apply (nt_version _ _ [108] [46; 49; 46; 50; 48]); [reflexivity|]. exists [[49]; [50; 48]]. split; [discriminate|]. split; [|reflexivity].
    intros d [<-|[<-|[]]]; split; [discriminate|reflexivity|discriminate|reflexivity]. }
  split; [|repeat split; vm_compute; reflexivity].
  intros p v p' q E1 _ E2. unfold ex_lib, so in *.
  assert (L : p = [108]).
  { destruct p as [|a [|b p]]; cbn [app] in E1; [discriminate E1|injection E1 as <-; reflexivity|]. injection E1 as _ _ E1.
    repeat (destruct p as [|? p]; cbn [app] in E1; [discriminate E1|]; injection E1 as _ E1). destruct p; discriminate E1. }
  subst p. destruct p' as [|a p']; [discriminate E2|cbn [length]; lia].
Qed.

(** a/b.t.c gives b.t.o *)
Example C72_output_ex : out_name [97; 47; 98; 46; 116; 46; 99] [46; 111] [98; 46; 116; 46; 111] /\
  replace_extn [97; 47; 98; 46; 116; 46; 99] [46; 111] = [98; 46; 116; 46; 111].
Proof.
  split; [|vm_compute; reflexivity]. apply (on_ext _ _ [97; 47] [98; 46; 116] [99]); [right; exists [97]; reflexivity|cbn; lia|cbn; lia|cbn; lia|reflexivity].
Qed.

(** Only the first ".so." is looked at: a.so.d/b.so.1 is refused, though it is the name of a shared object. *)
Theorem C72_directory_refuted : exists s, names_type false s FILE_DSO /\ get_file_type false s = Abort.
Proof.
  exists [97; 46; 115; 111; 46; 100; 47; 98; 46; 115; 111; 46; 49]. split; [|vm_compute; reflexivity].
  apply (nt_version _ _ [97; 46; 115; 111; 46; 100; 47; 98] [46; 49]); [reflexivity|]. exists [[49]]. split; [discriminate|]. split; [|reflexivity].
  intros d [<-|[]]. split; [discriminate|reflexivity].
Qed.
Print Assumptions C72_directory_refuted.

(** The file for the dependencies is the one of the manual, if the argument of -o has no directory. *)
Theorem C72_dep_file : forall MF MD o i r, dep_file MF MD o i r -> (forall x, o = Some x -> MD = true -> ~ In 47 x) ->
  dep_path MF MD o i = r.
Proof. exact dep_name. Qed.
Print Assumptions C72_dep_file.
Example C72_dep_ex : dep_file None true (Some [120; 46; 111]) [97; 46; 99] [120; 46; 100] /\ dep_path None true (Some [120; 46; 111]) [97; 46; 99] = [120; 46; 100].
Proof.
  split; [|vm_compute; reflexivity]. apply (df_MD_o [] [120] [111]); [left; reflexivity|cbn; lia|cbn; lia|cbn; lia].
Qed.
(** With -MD -o d/x.o the dependencies go to x.d and not to d/x.d. *)
Theorem C72_dep_directory_refuted : exists o i r, dep_file None true (Some o) i r /\ r = [100; 47; 120; 46; 100] /\
  dep_path None true (Some o) i = [120; 46; 100].
Proof.
  exists [100; 47; 120; 46; 111], [97; 46; 99], [100; 47; 120; 46; 100]. split; [|split; [reflexivity|vm_compute; reflexivity]].
  apply (df_MD_o [100; 47] [120] [111]); [right; exists [100]; reflexivity|cbn; lia|cbn; lia|cbn; lia].
Qed.
Print Assumptions C72_dep_directory_refuted.
