(** #embed and __has_embed (C69). *)
From Coq Require Import String ZArith List Bool Lia.
From Verif Require IntModel PifSpec PifModel.
From Verif Require Import Base EmbedSpec EmbedModel EmbedProofs EmbedErr.
Import ListNotations.
Local Open Scope string_scope.
Local Open Scope list_scope.

(** C69: for every list of the standard parameters, each at most once, with any balanced sequences in
    them, every resource and every limit that is not negative, #embed is replaced by what C23 says, in front of
    the rest of the file, and __has_embed has the value C23 says. *)
Theorem C69_embed : forall ev ps lim data cont, Forall (fun p => balanced (snd p)) ps -> NoDup (map fst ps) ->
  (match lookup Limit ps with Some a => exists v, ev a = Ok v /\ (0 <= v)%Z /\ lim = Some v | None => lim = None end) ->
  embed_file ev cont (written ps) (Some data) = Ok (expansion ps lim data ++ cont) /\
  has_embed ev (written ps) (Some data) = Ok (has_value lim data).
Proof. exact embed_ok. Qed.
Print Assumptions C69_embed.

(** A resource that is not there is an error for #embed and 0 for __has_embed. *)
Theorem C69_missing : forall ev ps lim cont, Forall (fun p => balanced (snd p)) ps -> NoDup (map fst ps) ->
  (match lookup Limit ps with Some a => exists v, ev a = Ok v /\ lim = Some v | None => lim = None end) ->
  embed_file ev cont (written ps) None = Abort /\ has_embed ev (written ps) None = Ok 0%Z.
Proof. exact embed_missing. Qed.
Print Assumptions C69_missing.

(** So is a parameter with another name, whatever follows. *)
Theorem C69_unknown : forall ev ps lim cont t rest file, Forall (fun p => balanced (snd p)) ps -> NoDup (map fst ps) ->
  (match lookup Limit ps with Some a => exists v, ev a = Ok v /\ lim = Some v | None => lim = None end) ->
  (forall n, t <> Tx (spell n)) ->
  embed_file ev cont (written ps ++ t :: rest) file = Abort /\ has_embed ev (written ps ++ t :: rest) file = Ok 0%Z.
Proof. exact embed_unknown. Qed.
Print Assumptions C69_unknown.

(** A parameter without its parentheses, or whose parenthesis is not closed, is an error in both. *)
Theorem C69_malformed : forall ev ps cont n rest file, Forall (fun p => balanced (snd p)) ps ->
  ((forall r, rest <> LP :: r) \/ (exists a, balanced a /\ rest = LP :: a)) ->
  embed_file ev cont (written ps ++ Tx (spell n) :: rest) file = Abort /\ has_embed ev (written ps ++ Tx (spell n) :: rest) file = Abort.
Proof. exact embed_malformed. Qed.
Print Assumptions C69_malformed.
Example C69_malformed_example : forall ev, embed_file ev [] [Tx "prefix"; Tx "1"; RP] (Some [1%Z]) = Abort /\
  embed_file ev [] [Tx "prefix"; LP; Tx "1"] (Some [1%Z]) = Abort.
Proof. intros ev. split; reflexivity. Qed.

(** *** An instance: [suffix(, 0) limit((3)) prefix(f(1), ) if_empty(7)] and a file of five bytes. *)
Definition ps69 : list param :=
  [(Suffix, [Tx ","; Tx "0"]); (Limit, [LP; Tx "3"; RP]); (Prefix, [Tx "f"; LP; Tx "1"; RP; Tx ","]); (IfEmpty, [Tx "7"])].
Definition ev69 (l : list tok) : outcome Z := match l with [Tx _; Tx "3"; Tx _] => Ok 3%Z | _ => Abort end.
Definition data69 : list Z := [255; 0; 10; 41; 44]%Z.
Example C69_ex : Forall (fun p => balanced (snd p)) ps69 /\ NoDup (map fst ps69) /\
  (exists a, lookup Limit ps69 = Some a /\ ev69 a = Ok 3%Z) /\
  expansion ps69 (Some 3%Z) data69 =
    [Tx "f"; LP; Tx "1"; RP; Tx ","; Num 255; Tx ","; Num 0; Tx ","; Num 10; Tx ","; Tx "0"] /\
  expansion ps69 (Some 3%Z) [] = [Tx "7"] /\ has_value (Some 3%Z) data69 = 1%Z /\ has_value (Some 0%Z) data69 = 2%Z /\
  embed_file ev69 [Tx ";"] (written ps69) (Some data69) = Ok (expansion ps69 (Some 3%Z) data69 ++ [Tx ";"]) /\
  embed_file ev69 [Tx ";"] (written ps69 ++ [Tx "limits"]) (Some data69) = Abort.
Proof.
  assert (T : forall s, s <> "(" -> s <> ")" -> forall l, balanced l -> balanced (Tx s :: l)).
  { intros s A B l H. apply bal_tok; [unfold LP; congruence|unfold RP; congruence|exact H]. }
  split; [|split; [|split; [|vm_compute; repeat split]]].
  - repeat apply Forall_cons; [| | | |apply Forall_nil]; cbn [snd].
    + apply T; [discriminate|discriminate|]. apply T; [discriminate|discriminate|]. apply bal_nil.
    + apply (bal_paren [Tx "3"] []); [|apply bal_nil]. apply T; [discriminate|discriminate|]. apply bal_nil.
    + apply T; [discriminate|discriminate|]. apply (bal_paren [Tx "1"] [Tx ","]); (apply T; [discriminate|discriminate|]; apply bal_nil).
    + apply T; [discriminate|discriminate|]. apply bal_nil.
  - repeat constructor; cbn; intuition discriminate.
  - eexists. split; reflexivity.
Qed.

(** Refuted: a limit of 2^63 or more, as in [limit(18446744073709551615u)], is read into an int64_t (C11)
    and becomes negative; nothing is embedded, though C23 wants the whole file, and
    __has_embed says that the file is not empty. *)
Theorem C69_limit_refuted : forall c : IntModel.cfg, exists data, let u := 18446744073709551615%Z in
  let lit := PifSpec.PLit true true 0 u in let ev := fun _ => PifModel.eval_const_expr c lit in
  let ps := [(Limit, [Tx "18446744073709551615u"])] in
  PifSpec.if_value lit = Some u /\
  expansion ps (Some u) data = [Num 1; Tx ","; Num 2] /\ embed_file ev [] (written ps) (Some data) = Ok [] /\
  has_embed ev (written ps) (Some data) = Ok 1%Z.
Proof. intros c. exists [1; 2]%Z. vm_compute. repeat split. Qed.
Print Assumptions C69_limit_refuted.

(** Refuted: C23 (6.10.1) makes [__limit__] another spelling of [limit], but it is unknown here. *)
Theorem C69_underscores_refuted : exists data, forall ev cont,
  expansion [(IfEmpty, [Tx "0"])] None data = [Num 1] /\
  embed_file ev cont [Tx "__if_empty__"; LP; Tx "0"; RP] (Some data) = Abort /\
  embed_file ev cont [Tx "if_empty"; LP; Tx "0"; RP] (Some data) = Ok (Num 1%Z :: cont).
Proof. exists [1%Z]. intros ev cont. repeat split. Qed.
Print Assumptions C69_underscores_refuted.

(** Refuted: a parameter may appear only once, but a second one replaces the first without a word. *)
Theorem C69_twice_refuted : exists ps data, ~ NoDup (map fst ps) /\ Forall (fun p => balanced (snd p)) ps /\
  forall ev, embed_file ev [] (written ps) (Some data) = Ok [Tx "b"; Num 1].
Proof.
  exists [(Prefix, [Tx "a"]); (Prefix, [Tx "b"])], [1%Z]. split; [|split].
  - intros H. inversion H as [|x l N _]; subst. apply N. left. reflexivity.
  - repeat apply Forall_cons; [| |apply Forall_nil]; cbn [snd]; (apply bal_tok; [discriminate|discriminate|apply bal_nil]).
  - intros ev. vm_compute. reflexivity.
Qed.
Print Assumptions C69_twice_refuted.
