(** What a variable holding a value of any type promises. *)
From Coq Require Import List Arith Bool.
Import ListNotations.

(** Variables, types and values are numbers.  [AAssign x t v]: x is assigned the value v of type t; [ACopy x y]: x is
    assigned (or constructed from) y; [AWrite x t v]: v is written through the reference x.get<t>() returned;
    [AGet x t r]: x.get<t>() gives the value r, or throws bad_cast for None. *)
Inductive aev := AAssign (x t v : nat) | ACopy (x y : nat) | AWrite (x t v : nat) | AGet (x t : nat) (r : option nat).

(** The type and value of x when variables are independent of each other. *)
Fixpoint stored (x : nat) (H : list aev) : option (nat * nat) :=
  match H with
  | [] => None
  | AAssign y t v :: r => if x =? y then Some (t, v) else stored x r
  | ACopy y z :: r => if x =? y then stored z r else stored x r
  | AWrite y t v :: r => if x =? y then Some (t, v) else stored x r
  | AGet _ _ _ :: r => stored x r
  end.
(** What get<t> must do. *)
Definition get_of (d : option (nat * nat)) (t : nat) : option nat :=
  match d with Some (t', v) => if t =? t' then Some v else None | None => None end.
Definition no_write (e : aev) : Prop := match e with AWrite _ _ _ => False | _ => True end.
(** x has not been copied, to or from, since it was last assigned a value. *)
Fixpoint private (x : nat) (H : list aev) : bool :=
  match H with
  | [] => true
  | AAssign y _ _ :: r => if x =? y then true else private x r
  | ACopy y z :: r => if (x =? y) || (x =? z) then false else private x r
  | _ :: r => private x r
  end.
