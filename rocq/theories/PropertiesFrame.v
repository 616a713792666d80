(** C19: temporaries; C28: local variables in the stack frame. *)
From Coq Require Import ZArith List Bool Lia.
From Verif Require Import Base FrameSpec FrameModel FrameProofs FrameVars.
Import ListNotations.
Local Open Scope Z_scope.

(** *** C19: temporaries alive at the same time are kept apart; one that is alive while all
    registers are overwritten is in memory, and one alive while the first [i] registers are is not
    in those; memory places lie between the local variables and the end of the frame. *)
Theorem C19_temporaries_apart :
  forall reuse lv es st log, temporaries reuse lv es = Ok (st, log) ->
  (forall x y, In x log -> In y log -> (made x < made y)%nat -> (made y < used x)%nat -> separate (where_ x) (where_ y)) /\
  (forall x y, In x log -> In y log -> made x = made y -> x = y) /\
  (forall x c, In x log -> (made x < c < used x)%nat -> nth_error es c = Some EClobber -> exists o n, where_ x = InMem o n) /\
  (forall x c i, In x log -> (made x < c < used x)%nat -> nth_error es c = Some (EClobberGp i) -> forall n, where_ x = InGp n -> i <= n) /\
  (forall x, In x log -> match where_ x with InGp n => 0 <= n < 6 | InFp n => 0 <= n < 6 | InMem o n => - t_peak st <= o /\ o + n <= - lv /\ 0 < n /\ (8 | o + lv) end).
Proof. exact temporaries_ok. Qed.
Print Assumptions C19_temporaries_apart.
(** *** C19: every temporary gets a place, of 8 or 16 bytes if in memory, as long as the frame
    is certain to fit an int *)
Theorem C19_every_temporary :
  forall reuse lv es, 0 <= lv -> lv + 16 * Z.of_nat (length es) <= INT_MAX -> forall ls, lifetimes 0 es [] = Some ls ->
  exists st log, temporaries reuse lv es = Ok (st, log) /\ map span (rev log) = ls /\
    forall x w, In x log -> nth_error es (used x) = Some (EPop w) -> forall o n, where_ x = InMem o n -> n = if w then 16 else 8.
Proof. exact temporaries_all. Qed.
Print Assumptions C19_every_temporary.

(** *** C28: local variables keep their order and are inside the frame; what the prologue saves
    there is inside too, aligned to its size, and overlaps neither itself nor any variable; those alive together do not overlap, none do when places are not reused;
    with the frame pointer aligned as the prologue does, each variable is aligned. All variables
    together must be certain to fit an int. *)
Theorem C28_frame_layout :
  forall va dv rs reuse t p size, Forall wf_var (everything t) -> 200 + need (everything t) <= INT_MAX -> layout_frame va dv rs reuse t = Ok (p, size) ->
  tree_map fst p = t /\ (8 | size) /\
  (forall v o, In (v, o) (everything p) -> if lstack v then o = lstackofs v + 16 else - size <= o /\ o + lsize v <= 0) /\
  (forall gp fp, ForallOrdPairs apart2 (saved va dv rs gp fp) /\
     forall s, In s (saved va dv rs gp fp) -> - size <= fst s /\ fst s + snd s <= 0 /\ (snd s | fst s) /\
       forall v o, In (v, o) (everything p) -> lstack v = false -> apart o (lsize v) (fst s) (snd s)) /\
  (forall q, In q (paths p) -> ForallOrdPairs indep q) /\ (reuse = false -> ForallOrdPairs indep (everything p)) /\
  (Forall (fun v => pow2 (lalign v)) (everything t) -> forall base, (get_lvar_align t 16 | base) -> forall v o, In (v, o) (everything p) -> lstack v = false ->
     (lvla v = false -> (lalign v | base + o)) /\ (lvla v = true -> (8 | base + o)) /\ (larray v = true -> 16 <= lsize v -> (16 | base + o))).
Proof. exact frame_ok. Qed.
Print Assumptions C28_frame_layout.
Theorem C28_frame_fits :
  forall va dv rs reuse t, Forall wf_var (everything t) -> Forall ofs_fits (everything t) -> 200 + need (everything t) <= INT_MAX ->
  exists r, layout_frame va dv rs reuse t = Ok r.
Proof. exact frame_total. Qed.
Print Assumptions C28_frame_fits.

(** *** C28 is false without a bound on the sizes: ty->size is an int64_t, and the position is
    silently reduced to an int, so an array of 4 GiB takes no room and lies over the variable
    declared before it. *)
Definition ex_4g : lvar := mklvar false 0 true false (2 ^ 32) 1.
Theorem C28_huge_refuted :
  ~ (forall va dv rs reuse t p size, Forall wf_var (everything t) -> layout_frame va dv rs reuse t = Ok (p, size) ->
     forall q, In q (paths p) -> ForallOrdPairs indep q).
Proof.
  intros H. specialize (H false false false false (Node [mklvar false 0 false false 8 8; ex_4g] []) (Node [(mklvar false 0 false false 8 8, -8); (ex_4g, -16)] []) 16).
  assert (W : Forall wf_var (everything (Node [mklvar false 0 false false 8 8; ex_4g] []))) by (repeat constructor; cbn; lia).
  specialize (H W eq_refl _ (or_introl eq_refl)). inversion H as [|? ? F _]; subst. inversion F as [|? ? I _]; subst. specialize (I eq_refl eq_refl). unfold apart in I. cbn in I. lia.
Qed.
Print Assumptions C28_huge_refuted.

(** *** Examples *)
(** f(a + g(b * c), x) / ...: eight nested temporaries, a call in the middle, a vector one. *)
Definition ex_events : list event :=
  [EPush SL_GP; EClobberGp 1; EPush SL_GP; EPush SL_FP; EPush SL_GP; EClobber; EPop false; EPush SL_ST; EPush SL_GP; EPop false; EPop true; EPop false; EPop false;
   EPush SL_GP; EPop false; EPop false;
   EPush SL_GP; EPush SL_GP; EPush SL_GP; EPush SL_GP; EPush SL_GP; EPush SL_GP; EPush SL_GP; EPop false; EPop false; EPop false; EPop false; EPop false; EPop false; EPop false].
Example ex_temporaries :
  lifetimes 0 ex_events [] = Some [(4, 6); (8, 9); (7, 10); (3, 11); (2, 12); (13, 14); (0, 15); (22, 23); (21, 24); (20, 25); (19, 26); (18, 27); (17, 28); (16, 29)]%nat /\
  (do r <- temporaries true 32 ex_events; Ok (t_peak (fst r), map where_ (rev (snd r)))) =
    Ok (72, [InMem (-40) 8; InGp 0; InMem (-48) 16; InMem (-56) 8; InMem (-64) 8; InGp 0; InMem (-72) 8; InGp 0; InGp 1; InGp 2; InGp 3; InGp 4; InGp 5; InMem (-40) 8]).
Proof. vm_compute. auto. Qed.
(** { int a; char b[20]; { long c; int n; } { double d __attribute__((aligned(64))); } } *)
Definition ex_int : lvar := mklvar false 0 false false 4 4.
Definition ex_arr : lvar := mklvar false 0 true false 20 1.
Definition ex_long : lvar := mklvar false 0 false false 8 8.
Definition ex_big : lvar := mklvar false 0 false false 8 64.
Definition ex_param : lvar := mklvar true 8 false false 8 8.
Definition ex_scopes : tree lvar := Node [ex_param; ex_int; ex_arr] [Node [ex_long; ex_int] []; Node [ex_big] [Node [ex_int] []]].
Example ex_layout :
  Forall wf_var (everything ex_scopes) /\ 200 + need (everything ex_scopes) <= INT_MAX /\ Forall (fun v => pow2 (lalign v)) (everything ex_scopes) /\ get_lvar_align ex_scopes 16 = 64 /\
  layout_frame true false true true ex_scopes =
    Ok (Node [(ex_param, 24); (ex_int, -188); (ex_arr, -208)] [Node [(ex_long, -216); (ex_int, -220)] []; Node [(ex_big, -256)] [Node [(ex_int, -260)] []]], 264) /\
  layout_frame true false true false ex_scopes =
    Ok (Node [(ex_param, 24); (ex_int, -188); (ex_arr, -208)] [Node [(ex_long, -216); (ex_int, -220)] []; Node [(ex_big, -256)] [Node [(ex_int, -260)] []]], 264).
Proof.
  split; [repeat constructor; cbn; lia|]. split; [vm_compute; discriminate|]. split; [|vm_compute; auto].
  repeat constructor; cbn; [exists 3|exists 2|exists 0|exists 3|exists 2|exists 6|exists 2]; (split; [lia|reflexivity]).
Qed.
