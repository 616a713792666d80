(** C70: #line gives lines the numbers and names C says. *)
From Coq Require Import ZArith List Bool Lia.
From Verif Require Import Base IntModel NumModel LexSpec MarkSpec MarkModel MarkProofs MarkErr.
Import ListNotations.
Local Open Scope Z_scope.

(** Every token, and every __LINE__ and __FILE__, has the presumed line and name, for any number of directives. *)
Theorem C70_line : forall marks names base l, in_order 1 l -> Forall plain_item l -> marked l marks names ->
  (forall k v, marks k = Some v -> v < 2 ^ 31) ->
  (forall n, In (Tok n) l -> number marks n < 2 ^ 31) ->
  preprocess2 (mkfile 0 base) l = Ok (map (fun n => (number marks n, naming names base n)) (toks l)).
Proof. exact line_main. Qed.
Print Assumptions C70_line.

(** In a file that is accepted every directive has an integer constant, and after it nothing or a name. *)
Theorem C70_accepted : forall l f o, preprocess2 f l = Ok o -> forall first last w a, In (Dir first last w a) l ->
  a <> Junk /\ exists t v, convert_pp_number w = Ok (Some (t, v)) /\ kd t = KInt.
Proof. exact line_accepted. Qed.
Print Assumptions C70_accepted.

(** #line 100 on line 2, #line 7 "a" on line 5; tokens on lines 1, 3, 4, 6 and 8. *)
Definition ex_items : list item :=
  [Tok 1; Dir 2 2 [49; 48; 48] Nothing; Tok 3; Tok 4; Dir 5 5 [55] (Name [97]); Tok 6; Tok 8].
Definition ex_marks (k : nat) : option Z := match k with 2%nat => Some 100 | 5%nat => Some 7 | _ => None end.
Definition ex_names (k : nat) : option (list Z) := match k with 5%nat => Some [97] | _ => None end.
Example C70_ex : in_order 1 ex_items /\ Forall plain_item ex_items /\ marked ex_items ex_marks ex_names /\
  (forall k v, ex_marks k = Some v -> v < 2 ^ 31) /\ (forall n, In (Tok n) ex_items -> number ex_marks n < 2 ^ 31) /\
  preprocess2 (mkfile 0 [98]) ex_items = Ok [(1, [98]); (100, [98]); (101, [98]); (7, [97]); (9, [97])].
Proof.
  split; [cbn; lia|]. split.
  { repeat apply Forall_cons; [..|apply Forall_nil]; cbn [plain_item length]; try lia;
      (split; [reflexivity|]; split; [lia|]; split; [eexists; eexists; split; [reflexivity|lia]|]; split; [lia|reflexivity]). }
  split.
  { split.
    - intros f k w a K. unfold ex_items in K; cbn [In] in K.
      destruct K as [K|[K|[K|[K|[K|[K|[K|K]]]]]]]; try discriminate K; [..|destruct K]; injection K as <- <- <- <-.
      + split; [exists 100; split; [split; [reflexivity|split; [discriminate|reflexivity]]|reflexivity]|reflexivity].
      + split; [exists 7; split; [split; [reflexivity|split; [discriminate|reflexivity]]|reflexivity]|reflexivity].
    - intros k H.
      assert (k <> 2%nat) by (intros ->; apply (H 2%nat [49; 48; 48] Nothing); right; left; reflexivity).
      assert (k <> 5%nat) by (intros ->; apply (H 5%nat [55] (Name [97])); do 4 right; left; reflexivity).
      do 6 (destruct k as [|k]; [try (split; reflexivity); lia|]). split; reflexivity. }
  split.
  { intros k v E. do 6 (destruct k as [|k]; [cbn in E; try discriminate E; injection E as <-; reflexivity|]). discriminate E. }
  split.
  { intros n K. unfold ex_items in K; cbn [In] in K. repeat (destruct K as [K|K]; [try discriminate K; injection K as <-; reflexivity|]). destruct K. }
  vm_compute. reflexivity.
Qed.

(** A digit sequence with a leading zero is decimal in a #line directive (6.10.5), but is read as octal:
    #line 010 gives 8 to the next line, which has the number 10. *)
Theorem C70_octal_refuted : exists w v, says w v /\ v = 10 /\
  preprocess2 (mkfile 0 []) [Dir 1 1 w Nothing; Tok 2] = Ok [(8, [])] /\
  number (fun k => if Nat.eqb k 1 then Some v else None) 2 = 10.
Proof. exists [48; 49; 48], 10. split; [split; [reflexivity|split; [discriminate|reflexivity]]|]. split; [reflexivity|]. split; vm_compute; reflexivity. Qed.
Print Assumptions C70_octal_refuted.

(** So #line 09 is refused (as a float), though it is a digit sequence with a value other than zero. *)
Theorem C70_leading_zero_refuted : exists w v, says w v /\ v = 9 /\
  (forall f line, read_line_marker f line w Nothing = Abort).
Proof. exists [48; 57], 9. split; [split; [reflexivity|split; [discriminate|reflexivity]]|]. split; [reflexivity|]. intros f line. vm_compute. reflexivity. Qed.
Print Assumptions C70_leading_zero_refuted.

(** A directive that goes over two physical lines (with a comment or a spliced line after the number, or before the
    name) gives the line after it the number after the one it says. *)
Theorem C70_two_lines_refuted : exists w v, says w v /\
  preprocess2 (mkfile 0 []) [Dir 1 2 w (Name [97]); Tok 3] = Ok [(v + 1, [97])] /\
  number (fun k => if Nat.eqb k 2 then Some v else None) 3 = v.
Proof. exists [53; 48], 50. split; [split; [reflexivity|split; [discriminate|reflexivity]]|]. split; vm_compute; reflexivity. Qed.
Print Assumptions C70_two_lines_refuted.

(** What is not a digit sequence is accepted: 0x10 is line 16. *)
Theorem C70_digits_refuted : exists w, (forall v, ~ says w v) /\
  preprocess2 (mkfile 0 []) [Dir 1 1 w Nothing; Tok 2] = Ok [(16, [])].
Proof. exists [48; 120; 49; 48]. split; [intros v [K _]; discriminate K|vm_compute; reflexivity]. Qed.
Print Assumptions C70_digits_refuted.
