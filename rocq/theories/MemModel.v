(** Model of get_process_phy_mem (source/cocpp/core/co_vos_gcc_x86_64.cpp 200-227) and of the functions of std::string it uses.  Line numbers
    refer to that file.  A file is the list of its lines without the line ends (getline 206), or None if it cannot be opened (203: then the loop
    206 is not entered).  size_t and unsigned long are numbers up to [max]. *)
From Coq Require Import List NArith Ascii String Bool.
Import ListNotations.
Local Open Scope char_scope.

(** find_first_of(" \t") looks for these (211, 215). *)
Definition blank (c : ascii) : bool := (c =? " ") || (c =? "009").
(** s.find_first_of / find_first_not_of (211, 215): the part of [s] before the first character with [p], and the part from it on; None for npos. *)
Fixpoint cut (p : ascii -> bool) (s : list ascii) : option (list ascii * list ascii) :=
  match s with
  | [] => None
  | c :: r => if p c then Some ([], s) else option_map (fun x => (c :: fst x, snd x)) (cut p r)
  end.
(** A character as a digit (strtoul in std::stoul, 219). *)
Definition digit (c : ascii) : option N := let n := N_of_ascii c in if ((48 <=? n) && (n <=? 57))%N then Some (n - 48)%N else None.
(** The loop of strtoul with base 10 (219): the value of the longest beginning that consists of digits; [seen] tells whether there was one. *)
Fixpoint digits (acc : N) (seen : bool) (s : list ascii) : option N :=
  match s with
  | c :: r => match digit c with Some d => digits (10 * acc + d)%N true r | None => if seen then Some acc else None end
  | [] => if seen then Some acc else None
  end.
(** The result: the value returned (226); std::invalid_argument or std::out_of_range thrown by stoul (219). *)
Inductive mres := MVal (n : N) | MInvalid | MRange.
(** std::stoul (219).  Simplification: white space and a sign in front of the digits, which strtoul would accept, count as invalid; the first
    character is never white space (214), and the kernel writes no sign. *)
Definition stoul (max : N) (s : list ascii) : mres :=
  match digits 0 false s with None => MInvalid | Some n => if (n <=? max)%N then MVal n else MRange end.
(** "VmRSS:" (208). *)
Definition tag : list ascii := ["V"; "m"; "R"; "S"; "S"; ":"].
(** line.substr(0, 6) == "VmRSS:" (208); the rest of the line (210). *)
Fixpoint after (p s : list ascii) : option (list ascii) :=
  match p, s with
  | [], _ => Some s
  | a :: p, b :: s => if a =? b then after p s else None
  | _ :: _, [] => None
  end.
(** The loop (206-224). *)
Fixpoint mem_loop (max : N) (l : list (list ascii)) : mres :=
  match l with
  | [] => MVal 0
  | x :: r => match after tag x with
              | None => mem_loop max r
              | Some v => match cut (fun c => negb (blank c)) v with
                          | None => mem_loop max r
                          | Some (_, v) => match cut blank v with None => mem_loop max r | Some (w, _) => stoul max w end
                          end
              end
  end.
(** get_process_phy_mem (200-227). *)
Definition phy_mem (max : N) (f : option (list (list ascii))) : mres := match f with None => MVal 0 | Some l => mem_loop max l end.
