(** C12: macro expansion. *)
From Coq Require Import Ascii String ZArith List Bool Lia.
From Verif Require Import Base LexModel PpSpec MacSpec MacModel MacPasteModel MacProofs MacObj MacSubst MacMain.
Import ListNotations.
Local Open Scope string_scope.
Local Open Scope list_scope.

(** *** C12: object-like macros are replaced, with nested replacement, as the standard says; the
    expansion of every token list ends, for every table of such macros *)
Theorem C12_objlike_replacement :
  forall o strict tbl, obj_tbl tbl ->
  forall l, exists f r, (forall f', (f <= f')%nat -> expand (paste_lex o) strict tbl f' [] [] l = Ok r) /\
    map abs r = replace (abs_tbl tbl) (S (length (nodup string_dec (map fst tbl)))) [] (map abs l).
Proof. exact (fun o strict tbl H => obj_spec (paste_lex o) strict tbl H). Qed.
Print Assumptions C12_objlike_replacement.

(** *** C12: expansion ends whenever no replacement list has an unpaired parenthesis, whatever
    else the macros do: parameters, #, ##, variable arguments, mutual recursion *)
Theorem C12_terminates :
  forall o strict tbl, bodies_balanced tbl ->
  forall l, exists f r, r <> UB /\ forall f', (f <= f')%nat -> expand (paste_lex o) strict tbl f' [] [] l = r.
Proof. exact terminates. Qed.
Print Assumptions C12_terminates.
(** With such macros the parentheses of the text are kept. *)
Theorem C12_parens_kept :
  forall o strict tbl f l r, bodies_balanced tbl ->
  expand (paste_lex o) strict tbl f [] [] l = Ok r -> forall k, walk k (map ttext r) = walk k (map ttext l).
Proof. exact parens_kept. Qed.
Print Assumptions C12_parens_kept.

(** *** C12: a call of a function-like macro is replaced by its replacement list with the
    parameters substituted, the results of # and ## among them, and the result is scanned again
    with the macro locked. The first operand of every ## has tokens. *)
Theorem C12_call :
  forall o strict tbl, (forall s m, lookup s tbl = Some m -> clean (mbody m)) ->
  forall t m lp rp cm hh args fulls body rest f,
  is_id t = true -> noexp t = false -> lookup (mtext t) tbl = Some m -> mobj m = false -> NoDup (mparams m) ->
  eqt lp "(" = true -> eqt rp ")" = true -> eqt cm "," = true -> eqt hh "##" = true ->
  length args = length (mparams m) -> args_ok (mva m) args -> (forall a, In a args -> clean a) ->
  mbody m = flat_map (chain_toks hh) body ->
  (forall ch, In ch body -> chain_ok (mparams m) (mva m) ch /\
     (snd ch <> [] -> head_joined mtok stringize align (fun i => nth i args []) (fst ch) <> [])) ->
  (1 <= f)%nat -> Forall2 (fun a e => expand (paste_lex o) strict tbl f [] [] a = Ok e) args fulls ->
  expand (paste_lex o) strict tbl (S f) [] [] (t :: lp :: separated cm args ++ rp :: rest) =
    (do v <- list_value mtok (paste_lex o) stringize align (fun i => nth i args []) (fun i => nth i fulls []) body;
     match v with
     | [] => expand (paste_lex o) strict tbl f [] [] (or_space rest t)
     | x :: b => expand (paste_lex o) strict tbl f [] [(mtext t, length rest)] (align x t :: b ++ rest)
     end).
Proof. exact call_spec. Qed.
Print Assumptions C12_call.

(** *** C12 is false when the first operand of ## is empty: the second one is then expanded before
    it is substituted. With #define f(x, y) x ## y the call f(,f(,a)) gives a; the inner f is an
    operand of ##, so the standard wants it substituted as it is and left alone in the rescan. *)
Theorem C12_empty_operand_refuted :
  exists tbl l, tbl = [("f", mkmac false ["x"; "y"] false [tk KId "x"; tk KOther "##"; tk KId "y"])] /\
    l = [tk KId "f"; tk KOther "("; tk KOther ","; tk KId "f"; tk KOther "("; tk KOther ","; tk KId "a"; tk KOther ")"; tk KOther ")"] /\
    list_value mtok (paste_lex (mklopt false)) stringize align
      (fun i => nth i [[]; [tk KId "f"; tk KOther "("; tk KOther ","; tk KId "a"; tk KOther ")"]] []) (fun i => nth i [[]; [tk KId "a"]] [])
      [(Param (tk KId "x") 0, [Param (tk KId "y") 1])] = Ok [tk KId "f"; tk KOther "("; tk KOther ","; tk KId "a"; tk KOther ")"] /\
    forall strict f, (20 <= f)%nat -> expand (paste_lex (mklopt false)) strict tbl f [] [] l = Ok [tk KId "a"].
Proof. exact empty_operand. Qed.
Print Assumptions C12_empty_operand_refuted.

(** *** C12 is false when # is the second operand of ##. With #define W(x) L ## #x the call W(a)
    must give L"a"; the compiler pastes L and # first, which is no token, and reports an error. *)
Theorem C12_hash_operand_refuted :
  list_value mtok (paste_lex (mklopt false)) stringize align (fun i => nth i [[tk KId "a"]] []) (fun i => nth i [[tk KId "a"]] [])
    [(Plain (tk KId "L"), [Str (tk KOther "#") (tk KId "x") 0])] = Ok [tk KLit "L""a"""] /\
  forall strict f, (3 <= f)%nat ->
    expand (paste_lex (mklopt false)) strict
      [("W", mkmac false ["x"] false [tk KId "L"; tk KOther "##"; tk KOther "#"; tk KId "x"])] f [] []
      [tk KId "W"; tk KOther "("; tk KId "a"; tk KOther ")"] = Abort.
Proof. exact hash_operand. Qed.
Print Assumptions C12_hash_operand_refuted.

(** *** C12 is false without that condition: with
      #define m g ( ( n )
      #define n g ( ( m )
      #define g(x) x
    the expansion of ( m ) never ends. The locks of m and n are released when the list of
    arguments runs past the end of their replacement. *)
Theorem C12_unbalanced_refuted :
  forall o strict f, expand (paste_lex o) strict
    [("m", mkmac true [] false [tk KId "g"; tk KOther "("; tk KOther "("; tk KId "n"; tk KOther ")"]);
     ("n", mkmac true [] false [tk KId "g"; tk KOther "("; tk KOther "("; tk KId "m"; tk KOther ")"]);
     ("g", mkmac false ["x"] false [tk KId "x"])] f [] [] [tk KOther "("; tk KId "m"; tk KOther ")"] = UB.
Proof. exact (fun o strict f => proj1 (loops o strict f)). Qed.
Print Assumptions C12_unbalanced_refuted.

(** *** Examples *)
Definition o0 : lopt := mklopt false.
Definition mk (s : string) : mtok :=
  match s with
  | String c _ =>
      if LexModel.Isdigit (Z.of_nat (nat_of_ascii c)) then tk KOther s
      else if LexModel.Isalnum (Z.of_nat (nat_of_ascii c)) || Ascii.eqb c "_" then tk KId s
      else if Ascii.eqb c """" then tk KLit s else tk KOther s
  | _ => tk KOther s
  end.
Definition ts := map mk.
Definition run_mac (tbl : mtable) (l : list string) : outcome (list string) :=
  do r <- expand (paste_lex o0) false tbl 200 [] [] (ts l); Ok (map mtext r).
(** Mutually recursive object-like macros. *)
Definition ex_obj : mtable :=
  [("a", mkmac true [] false (ts ["b"; "+"; "c"])); ("b", mkmac true [] false (ts ["a"; "*"; "c"])); ("c", mkmac true [] false (ts ["c"; "-"; "e"])); ("e", mkmac true [] false [])].
Example ex_objlike :
  obj_tbl ex_obj /\ run_mac ex_obj ["a"; ";"; "b"] = Ok ["a"; "*"; "c"; "-"; "+"; "c"; "-"; ";"; "b"; "+"; "c"; "-"; "*"; "c"; "-"].
Proof.
  split; [|vm_compute; reflexivity]. intros s m. unfold lookup, ex_obj. cbn [find fst].
  repeat (match goal with |- context [String.eqb ?x ?y] => destruct (String.eqb x y) end); intros H; try discriminate; injection H as <-; (split; [reflexivity|]); intros t H; repeat (destruct H as [<-|H]; [reflexivity|]); destruct H.
Qed.
(** The example of C11 6.10.3.5p5, and #, ## and __VA_OPT__. *)
Definition ex_fun : mtable :=
  [("x", mkmac true [] false (ts ["2"])); ("f", mkmac false ["a"] false (ts ["f"; "("; "x"; "*"; "("; "a"; ")"; ")"])); ("g", mkmac true [] false (ts ["f"]));
   ("z", mkmac true [] false (ts ["z"; "["; "0"; "]"])); ("h", mkmac true [] false (ts ["g"; "("; "~"])); ("m", mkmac false ["a"] false (ts ["a"; "("; "w"; ")"]));
   ("w", mkmac true [] false (ts ["0"; ","; "1"])); ("t", mkmac false ["a"] false (ts ["a"])); ("p", mkmac false [] false (ts ["int"])); ("q", mkmac false ["x"] false (ts ["x"]));
   ("r", mkmac false ["x"; "y"] false (ts ["x"; "##"; "y"])); ("str", mkmac false ["x"] false (ts ["#"; "x"]));
   ("v", mkmac false ["fmt"; "__VA_ARGS__"] true (ts ["call"; "("; "fmt"; "__VA_OPT__"; "("; ","; ")"; "__VA_ARGS__"; ")"]))].
Example ex_standard :
  run_mac ex_fun ["f"; "("; "y"; "+"; "1"; ")"; "+"; "f"; "("; "f"; "("; "z"; ")"; ")"; "%"; "t"; "("; "t"; "("; "g"; ")"; "("; "0"; ")"; "+"; "t"; ")"; "("; "1"; ")"; ";"] =
    Ok ["f"; "("; "2"; "*"; "("; "y"; "+"; "1"; ")"; ")"; "+"; "f"; "("; "2"; "*"; "("; "f"; "("; "2"; "*"; "("; "z"; "["; "0"; "]"; ")"; ")"; ")"; ")"; "%"; "f"; "("; "2"; "*"; "("; "0"; ")"; ")"; "+"; "t"; "("; "1"; ")"; ";"] /\
  run_mac ex_fun ["g"; "("; "x"; "+"; "("; "3"; ","; "4"; ")"; "-"; "w"; ")"; "|"; "h"; "5"; ")"; "&"; "m"; "("; "f"; ")"; "^"; "m"; "("; "m"; ")"; ";"] =
    Ok ["f"; "("; "2"; "*"; "("; "2"; "+"; "("; "3"; ","; "4"; ")"; "-"; "0"; ","; "1"; ")"; ")"; "|"; "f"; "("; "2"; "*"; "("; "~"; "5"; ")"; ")"; "&"; "f"; "("; "2"; "*"; "("; "0"; ","; "1"; ")"; ")"; "^"; "m"; "("; "0"; ","; "1"; ")"; ";"] /\
  run_mac ex_fun ["p"; "("; ")"; "i"; "["; "q"; "("; ")"; "]"; "="; "{"; "q"; "("; "1"; ")"; ","; "r"; "("; "2"; ","; "3"; ")"; ","; "r"; "("; "4"; ","; ")"; ","; "r"; "("; ","; "5"; ")"; ","; "r"; "("; ","; ")"; "}"; ";"] =
    Ok ["int"; "i"; "["; "]"; "="; "{"; "1"; ","; "23"; ","; "4"; ","; "5"; ","; "}"; ";"] /\
  run_mac ex_fun ["v"; "("; "a"; ")"; "v"; "("; "a"; ","; "b"; ","; "x"; ")"; "str"; "("; "x"; "+"; """a\n"""; ")"] =
    Ok ["call"; "("; "a"; ")"; "call"; "("; "a"; ","; "b"; ","; "2"; ")"; """x + \""a\\n\"""""] /\
  run_mac ex_fun ["r"; "("; "+"; ","; "-"; ")"] = Abort.
Proof. vm_compute. repeat split; reflexivity. Qed.
Example ex_balanced_bodies :
  let tbl := filter (fun e => negb (String.eqb (fst e) "h")) ex_fun in
  bodies_balanced tbl /\ ~ balanced_parens (map ttext (ts ["g"; "("; "~"])) /\
  walk 0 (map ttext (ts ["f"; "("; "f"; "("; "z"; ")"; ")"; ")"])) = None /\ walk 0 ["f"; "("; "2"; "*"; "("; "f"; "("; "2"; "*"; "("; "z"; "["; "0"; "]"; ")"; ")"; ")"; ")"] = Some 0%nat.
Proof.
  cbv zeta. split; [|repeat split; vm_compute; congruence]. intros s m. unfold lookup. change (filter _ ex_fun) with (firstn 4 ex_fun ++ skipn 5 ex_fun). unfold ex_fun. cbn [firstn skipn app find fst].
  repeat (match goal with |- context [String.eqb ?x ?y] => destruct (String.eqb_spec x y) as [<-|] end); intros H; try discriminate; injection H as <-; (split; [reflexivity|]); intros q H; repeat (destruct H as [<-|H]; [split; discriminate|]); destruct H.
Qed.

(** #define k(x, y, ...) x ## y ## 1 + # x y __VA_ARGS__ and the call k(a b, w, 3, (4, w)). *)
Definition ex_k : mac := mkmac false ["x"; "y"; "__VA_ARGS__"] true (ts ["x"; "##"; "y"; "##"; "1"; "+"; "#"; "x"; "y"; "__VA_ARGS__"]).
Definition ex_ktbl : mtable := ("k", ex_k) :: ex_fun.
Definition ex_kargs : list (list mtok) := [ts ["a"; "b"]; ts ["w"]; ts ["3"; ","; "("; "4"; ","; "w"; ")"]].
Definition ex_kbody : list (item mtok * list (item mtok)) :=
  [(Param (mk "x") 0, [Param (mk "y") 1; Plain (mk "1")]); (Plain (mk "+"), []); (Str (mk "#") (mk "x") 0, []); (Param (mk "y") 1, []); (Param (mk "__VA_ARGS__") 2, [])].
Example ex_call :
  NoDup (mparams ex_k) /\
  length ex_kargs = length (mparams ex_k) /\ args_ok true ex_kargs /\ mbody ex_k = flat_map (chain_toks (mk "##")) ex_kbody /\
  (forall ch, In ch ex_kbody -> chain_ok (mparams ex_k) true ch /\ (snd ch <> [] -> head_joined mtok stringize align (fun i => nth i ex_kargs []) (fst ch) <> [])) /\
  (do r <- expand (paste_lex o0) false ex_ktbl 60 [] [] (mk "k" :: mk "(" :: separated (mk ",") ex_kargs ++ mk ")" :: ts ["k"]); Ok (map mtext r)) =
    Ok ["a"; "bw1"; "+"; """a b"""; "0"; ","; "1"; "3"; ","; "("; "4"; ","; "0"; ","; "1"; ")"; "k"].
Proof.
  split; [repeat constructor; cbn; intuition discriminate|]. split; [reflexivity|]. split; [|split; [reflexivity|split; [|vm_compute; reflexivity]]].
  - intros l a r E. destruct l as [|x1 [|x2 [|x3 l]]]; cbn [app] in E; unfold ex_kargs in E.
    + injection E as <- <-. split; [reflexivity|left; reflexivity].
    + injection E as _ <- <-. split; [reflexivity|left; reflexivity].
    + injection E as _ _ <- <-. split; [reflexivity|right; auto].
    + injection E as _ _ _ E. destruct l; discriminate.
  - intros ch H. repeat (destruct H as [<-|H]; [|]); [..|destruct H]; (split; [|cbn [snd fst]; intros _; vm_compute; discriminate || congruence]);
      (split; [|split]; cbn [fst snd]; [cbn [item_ok]; repeat split; try reflexivity; try (intros s Hs; cbn in Hs; repeat (destruct Hs as [<-|Hs]; [reflexivity|]); destruct Hs); try discriminate; try (intros _ Hi; vm_compute in Hi; intuition discriminate)
      |intros x Hx; repeat (destruct Hx as [<-|Hx]; [split; [cbn [item_ok]; repeat split; try reflexivity; try (intros s Hs; cbn in Hs; repeat (destruct Hs as [<-|Hs]; [reflexivity|]); destruct Hs); try discriminate; try (intros _ Hi; vm_compute in Hi; intuition discriminate)|reflexivity]|]); destruct Hx
      |intros _ N t E; try discriminate; try congruence; injection E as <-; reflexivity]).
Qed.
