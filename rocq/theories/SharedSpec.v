(** What coroutines sharing one stack area may rely on, said over a history (newest first).  Nothing here mentions the code. *)
From Coq Require Import List Arith ZArith Bool.
Import ListNotations.
Local Open Scope Z_scope.

Inductive sevent :=
| SBorn (c : nat) (sp : Z) (live : list Z)   (* c is prepared: its first stack pointer and what must be above it *)
| SOut (c : nat) (sp : Z) (live : list Z)    (* c stops executing, with this stack pointer and these bytes from there to the top *)
| SIn (c : nat) (sp : Z) (live : list Z)     (* c executes again, with these *)
| SMap (a n : Z)                             (* n bytes at a were obtained from the system *)
| SUnmap (a n : Z).                          (* ... given back to the system *)

Fixpoint last_left (c : nat) (h : list sevent) : option (Z * list Z) :=
  match h with
  | [] => None
  | SBorn d p l :: r => if Nat.eqb d c then Some (p, l) else last_left c r
  | SOut d p l :: r => if Nat.eqb d c then Some (p, l) else last_left c r
  | _ :: r => last_left c r
  end.
(** C53, first half. *)
Definition stacks_kept (h : list sevent) : Prop := forall post c p l pre, h = post ++ SIn c p l :: pre -> last_left c pre = Some (p, l).

Definition zz_dec : forall p q : Z * Z, {p = q} + {p <> q}. decide equality; apply Z.eq_dec. Defined.
(** The pieces of memory obtained and not given back. *)
Fixpoint held (h : list sevent) : list (Z * Z) :=
  match h with
  | [] => []
  | SMap a n :: r => (a, n) :: held r
  | SUnmap a n :: r => remove zz_dec (a, n) (held r)
  | _ :: r => held r
  end.
