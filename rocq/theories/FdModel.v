(** Model of I/O objects and descriptors: source/cocpp/io/co_io.cpp (init_fd, close, and all other methods as one: a system call
    on fd__), co_file.cpp (open), co_net.cpp (socket, accept), include/cocpp/io/co_io.h (fd__, destructor, copies) and the table
    of descriptors of the process.

    Simplifications.  What a system call transfers is C60-C61; here it only matters on which open file it acts.  A call is one
    step.  Descriptors are not duplicated (dup, fork), and nobody but the library's objects closes their descriptors; init_fd is
    only called by the three functions above. *)
From Coq Require Import List Arith Bool.
From Verif Require Import Base FdSpec.
Import ListNotations.

(** The kernel's part: which open file each descriptor refers to; whether an open file is in non-blocking mode; how many were
    opened; the library's part: the objects that exist with their fd__ (None is -1, co_io.h 13); history (ghost). *)
Record fst_ := mkF { tab : list (option nat); nb : nat -> bool; nd : nat; obj : nat -> option (option nat); fh : list fev }.
(** The program starts with descriptors 0, 1, 2. *)
Definition finit : fst_ := mkF [Some 0; Some 1; Some 2] (fun _ => false) 3 (fun _ => None) [].

(** The lowest free descriptor (POSIX open, socket, accept). *)
Fixpoint lowest (t : list (option nat)) : nat :=
  match t with [] => 0 | None :: _ => 0 | Some _ :: r => S (lowest r) end.
(** Entry f of the table becomes x. *)
Fixpoint put (t : list (option nat)) (f : nat) (x : option nat) : list (option nat) :=
  match f, t with
  | 0, [] => [x]
  | 0, _ :: r => x :: r
  | S f, [] => None :: put [] f x
  | S f, y :: r => y :: put r f x
  end.
(** The open file of a descriptor. *)
Definition file_of (t : list (option nat)) (f : nat) : option nat := nth f t None.

(** Field updates and events. No counterpart in the code. *)
Definition flog (v : fev) (s : fst_) : fst_ := mkF (tab s) (nb s) (nd s) (obj s) (v :: fh s).
(** Field update. No counterpart in the code. *)
Definition setobj (s : fst_) (o : nat) (x : option (option nat)) : fst_ := mkF (tab s) (nb s) (nd s) (upd (obj s) o x) (fh s).
(** Field update. No counterpart in the code. *)
Definition settab (s : fst_) (f : nat) (x : option nat) : fst_ := mkF (put (tab s) f x) (nb s) (nd s) (obj s) (fh s).
(** Field update. No counterpart in the code. *)
Definition setnb (s : fst_) (d : nat) (b : bool) : fst_ := mkF (tab s) (upd (nb s) d b) (nd s) (obj s) (fh s).

(** The kernel opens a file and answers with descriptor and open file; b: in non-blocking mode. *)
Definition kopen (s : fst_) (b : bool) : fst_ * nat * nat :=
  let f := lowest (tab s) in
  (mkF (put (tab s) f (Some (nd s))) (upd (nb s) (nd s) b) (S (nd s)) (obj s) (fh s), f, nd s).

(** What makes an object: co_file::open (co_file.cpp 5-17) with O_NONBLOCK; co_net::socket (co_net.cpp 11-24); accept of object p
    (31-51), whose descriptor starts in blocking mode. *)
Inductive kind := KOpen | KSocket | KAccept (p : nat).
(** Answers: the call fails; it succeeds, and F_GETFL and F_SETFL of init_fd succeed or not. *)
Inductive ans := AFail | AGot (getfl setfl : bool).
(** init_fd (co_io.cpp 13-35) on a new object o: whether the mode is changed, what fd__ is.  Its result is not looked at
    (co_file.cpp 15, co_net.cpp 22, 48). *)
Definition init_fd (s : fst_) (o f d : nat) (getfl setfl : bool) : fst_ :=
  if getfl then
    if nb s d then setobj s o (Some (Some f))
    else if setfl then setobj (setnb s d true) o (Some (Some f)) else setobj s o (Some None)
  else setobj s o (Some None).
(** open and socket. *)
Definition make (s : fst_) (b : bool) (o : nat) (a : ans) : fst_ :=
  match a with
  | AFail => s
  | AGot g t => match kopen s b with (s1, f, d) => flog (VMade o d) (init_fd s1 o f d g t) end
  end.
(** The open file a call through object o reaches. *)
Definition reaches (s : fst_) (o : nat) : option nat :=
  match obj s o with Some (Some f) => file_of (tab s) f | _ => None end.
(** A system call on fd__ of an existing object (all methods of co_io.cpp 49-145, co_net.cpp 26-221): EBADF or carried out. *)
Definition act (s : fst_) (o : nat) : fst_ :=
  match reaches s o with Some d => flog (VAct o d (nb s d)) s | None => flog (VBad o) s end.

(** What happens: an object is made; copied (get_endpoint, co_server.cpp 27-30, co_client.cpp 11-14; optional and return values);
    destroyed (co_io.h 33); closed, where the kernel reports success or an error, having given up the descriptor in either case
    (Linux); used; its flags set with co_io::fcntl (co_io.cpp 108-116), which passes on the address of the argument list (C69), so
    that the mode becomes anything, like with ioctl (118-125); the rest of the program opens a file, or closes one it opened. *)
Inductive flbl := LMake (k : kind) (o : nat) (a : ans) | LCopy (p o : nat) | LDrop (o : nat) | LClose (o : nat) (ok : bool)
  | LIo (o : nat) | LFcntl (o : nat) (b : bool) | LExt | LExtClose (f : nat).

(** Whether descriptor f is held by the library: opened for one of its objects. *)
Definition ours (h : list fev) (d : nat) : bool := existsb (fun v => match v with VMade _ d' => d =? d' | _ => false end) h.

(** One step. *)
Definition fstep (s : fst_) (l : flbl) : option fst_ :=
  match l with
  | LMake k o a =>
      match obj s o with
      | Some _ => None
      | None => match k with
                | KOpen => Some (make s true o a)
                | KSocket => Some (make s false o a)
                | KAccept p => match obj s p with
                               | Some _ => let s1 := act s p in
                                           Some (match reaches s p with Some _ => make s1 false o a | None => s1 end)
                               | None => None
                               end
                end
      end
  | LCopy p o => match obj s p, obj s o with
                 | None, Some x => Some (flog (VCopy p o) (setobj s p (Some x)))
                 | _, _ => None
                 end
  | LDrop o => match obj s o with Some _ => Some (flog (VDrop o) (setobj s o None)) | None => None end
  | LClose o ok => (* co_io.cpp 37-47 *)
      match obj s o with
      | Some (Some f) =>
          match file_of (tab s) f with
          | Some d => let s1 := flog (VRel o d) (settab s f None) in
                      Some (if ok then flog (VClosed o) (setobj s1 o (Some None)) else s1)
          | None => Some (flog (VBad o) s)
          end
      | Some None => Some (flog (VBad o) s)
      | None => None
      end
  | LIo o => match obj s o with Some _ => Some (act s o) | None => None end
  | LFcntl o b => match obj s o with
                  | Some _ => let s1 := act s o in Some (match reaches s o with Some d => setnb s1 d b | None => s1 end)
                  | None => None
                  end
  | LExt => Some (fst (fst (kopen s false)))
  | LExtClose f => match file_of (tab s) f with
                   | Some d => if ours (fh s) d then None else Some (settab s f None)
                   | None => None
                   end
  end.

(** connect (co_net.cpp 72-102): the times select sleeps, in microseconds.  Linux writes the time not slept back into the time-out,
    which is set only once (73-76).  Result: the time-out of the next round; None if select slept longer than allowed. *)
Fixpoint selects (timeout : nat) (slept : list nat) : option nat :=
  match slept with [] => Some timeout | t :: r => if t <=? timeout then selects (timeout - t) r else None end.
