(** Model of endswith, replace_extn and get_file_type: main.c 565-578, 1008-1035. A C string is the list of its bytes. *)
From Coq Require Import ZArith List Bool.
From Verif Require Import Base LexSpec LexModel CliModel DrvSpec.
Import ListNotations.
Local Open Scope Z_scope.

(** main.c:565-569; strcmp is equality here. *)
Definition endswith (p q : list Z) : bool :=
  (length q <=? length p)%nat && bytes_eq (skipn (length p - length q) p) q.

(** strstr: the rest from the first occurrence on. *)
Fixpoint strstr (p q : list Z) : option (list Z) :=
  if is_prefix q p then Some p
  else match p with [] => None | _ :: r => strstr r q end.
(** main.c:1028-1029. *)
Fixpoint skip_version (p : list Z) : list Z :=
  match p with
  | [] => []
  | c :: r =>
      if Isdigit c || ((c =? 46) && match r with d :: _ => Isdigit d | [] => false end) then skip_version r else p
  end.

(** main.c:1008-1035. *)
Definition get_file_type (opt_E : bool) (s : list Z) : outcome ftype :=
  if endswith s [46; 97] then Ok FILE_AR
  else if endswith s [46; 115; 111] then Ok FILE_DSO
  else if endswith s [46; 111] || endswith s [46; 108; 111] then Ok FILE_OBJ
  else if endswith s [46; 99] then Ok FILE_C
  else if endswith s [46; 115] then Ok FILE_ASM
  else if endswith s [46; 83] then Ok FILE_PP_ASM
  else if opt_E && (bytes_eq s [45] || endswith s [46; 104]) then Ok FILE_C
  else match strstr s [46; 115; 111; 46] with
       | Some p => match skip_version (skipn 3 p) with [] => Ok FILE_DSO | _ => Abort end
       | None => Abort
       end.

(** basename for a path that does not end in a slash: what follows the last one. *)
Fixpoint basename (s : list Z) : list Z :=
  match s with
  | [] => []
  | c :: r => if existsb (Z.eqb 47) s then basename r else s
  end.
(** strrchr and the cut at it, main.c:574-576: up to the last dot. *)
Fixpoint cut_dot (s : list Z) : list Z :=
  match s with
  | [] => []
  | c :: r => if (c =? 46) && negb (existsb (Z.eqb 46) r) then [] else c :: cut_dot r
  end.
(** main.c:572-578. *)
Definition replace_extn (tmpl extn : list Z) : list Z := cut_dot (basename tmpl) ++ extn.

(** main.c:685-693. *)
Definition dep_path (opt_MF : option (list Z)) (opt_MD : bool) (opt_o : option (list Z)) (input : list Z) : list Z :=
  match opt_MF with
  | Some f => f
  | None =>
      if opt_MD then replace_extn (match opt_o with Some o => o | None => input end) [46; 100]
      else match opt_o with Some o => o | None => [45] end
  end.
