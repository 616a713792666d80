(** The operator _Pragma (6.10.10, C23; 6.10.9, C17): the text its string literal stands for. *)
From Coq Require Import ZArith List Bool.
Import ListNotations.
Local Open Scope Z_scope.

(** The escapes of quotes and backslashes are undone. *)
Fixpoint unescape (s : list Z) : list Z :=
  match s with
  | 92 :: c :: r => if (c =? 34) || (c =? 92) then c :: unescape r else 92 :: c :: unescape r
  | c :: r => c :: unescape r
  | [] => []
  end.
(** L, u, U and u8 are deleted. *)
Definition prefixes : list (list Z) := [[]; [76]; [117]; [85]; [117; 56]].
(** [destringized lit text]: the literal spelled [lit] stands for [text]. *)
Definition destringized (lit text : list Z) : Prop :=
  exists p body, In p prefixes /\ lit = p ++ 34 :: body ++ [34] /\ text = unescape body.
Definition pragma_word : list Z := [35; 112; 114; 97; 103; 109; 97; 32].
