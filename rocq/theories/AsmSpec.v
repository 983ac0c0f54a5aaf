(** What a switch of context has to preserve, said over a history of switches (newest first).  Nothing here mentions the code. *)
From Coq Require Import List Arith ZArith Bool.
Import ListNotations.
Local Open Scope Z_scope.

(** What a coroutine can see of the machine at one instruction: the 16 general purpose registers in a fixed order (the stack pointer is one of
    them), the flags, the address of the instruction to execute next, and the bytes of its stack from the stack pointer to the top. *)
Record image := { i_regs : list Z; i_flags : Z; i_rip : Z; i_stack : list Z }.
(** What a coroutine can see beyond that: the vector registers, and the 128 bytes below its stack pointer, which the x86-64 ABI reserves for a
    function that calls no other ("red zone"). *)
Record extra := { x_vec : Z; x_red : list Z }.

Inductive aevent :=
| ABorn (c : nat) (i : image)          (* c has been prepared and, if it is run now, should start with this image *)
| ACall (c : nat) (i : image)          (* c calls the switching function; the image is the one it must find when the call returns *)
| ACut (c : nat) (i : image) (x : extra) (* c is interrupted between two instructions; i and x are what it has at that point *)
| AIn (c : nat) (i : image) (x : extra). (* c executes again, with this *)

(** The image c was left with last. *)
Fixpoint left_with (c : nat) (h : list aevent) : option image :=
  match h with
  | [] => None
  | ABorn d i :: r => if Nat.eqb d c then Some i else left_with c r
  | ACall d i :: r => if Nat.eqb d c then Some i else left_with c r
  | ACut d i _ :: r => if Nat.eqb d c then Some i else left_with c r
  | AIn _ _ _ :: r => left_with c r
  end.
(** C52: every coroutine that executes again does so with exactly the image it was left with. *)
Definition preserved (h : list aevent) : Prop :=
  forall post c i x pre, h = post ++ AIn c i x :: pre -> left_with c pre = Some i.

(** The extra state c was interrupted with, if its last departure was an interruption. *)
Fixpoint cut_with (c : nat) (h : list aevent) : option extra :=
  match h with
  | [] => None
  | ABorn d _ :: r => if Nat.eqb d c then None else cut_with c r
  | ACall d _ :: r => if Nat.eqb d c then None else cut_with c r
  | ACut d _ x :: r => if Nat.eqb d c then Some x else cut_with c r
  | AIn _ _ _ :: r => cut_with c r
  end.
(** C70: a coroutine that was interrupted also finds its vector registers and its red zone again. *)
Definition transparent (h : list aevent) : Prop :=
  forall post c i x pre, h = post ++ AIn c i x :: pre -> forall y, cut_with c pre = Some y -> x = y.
(** The two halves of it. *)
Definition keeps_vec (h : list aevent) : Prop :=
  forall post c i x pre, h = post ++ AIn c i x :: pre -> forall y, cut_with c pre = Some y -> x_vec x = x_vec y.
Definition keeps_red (h : list aevent) : Prop :=
  forall post c i x pre, h = post ++ AIn c i x :: pre -> forall y, cut_with c pre = Some y -> x_red x = x_red y.

(** C55: an image with which a function taking one argument may be entered on the stack area [lo, hi): right address, right argument (rdi is the
    ninth register of the list), stack pointer inside the area with the return address on top of it, and the alignment the x86-64 ABI asks
    for at the entry of a function: 16 divides the stack pointer plus 8. *)
Definition inside (lo hi : Z) (i : image) : Prop := lo <= nth 15 (i_regs i) 0 /\ nth 15 (i_regs i) 0 + 8 <= hi.
Definition aligned (i : image) : Prop := (nth 15 (i_regs i) 0 + 8) mod 16 = 0.
Definition enters (entry arg : Z) (i : image) : Prop := i_rip i = entry /\ nth 8 (i_regs i) 0 = arg.
(** c has neither called the switching function nor been interrupted in h. *)
Definition never_left (c : nat) (h : list aevent) : Prop :=
  forall e, In e h -> match e with ABorn d _ => d <> c | ACall d _ => d <> c | ACut d _ _ => d <> c | AIn _ _ _ => True end.
