(** Model of blocking-style I/O on non-blocking descriptors: source/cocpp/io/co_io.cpp, co_net.cpp, co_client.cpp.

    The operating system is an oracle that chooses the answer of each system call.  Its behaviour that is relied upon: read and write
    transfer at most what was asked for and at most 2147479552 bytes (Linux), read answers 0 only at the end of the stream
    or if nothing was asked for.  Which coroutines run during CoYield does not matter here: an fd is used by one call at a time. *)
From Coq Require Import List Arith ZArith Bool.
From Verif Require Import Base IoSpec.
Import ListNotations.

(** int ret = ::read(...): conversion from ssize_t (64 bits) to int (32 bits) (co_io.cpp 53, 75; co_net.cpp 35, 108, 133). *)
Definition toint (n : nat) : Z := let r := (Z.of_nat n mod 4294967296)%Z in if (r <? 2147483648)%Z then r else (r - 4294967296)%Z.
(** Limit of Linux for one transfer (read(2), write(2)). *)
Definition maxrw : Z := 2147479552%Z.
(** The value of ret and of errno after the system call; errno keeps its value if the call succeeds. *)
Definition sysret (a : ans) (old : errno) : Z * errno := match a with Ret n => (toint n, old) | Err e => ((-1)%Z, e) end.

(** errno == EAGAIN || errno == EWOULDBLOCK (co_io.cpp 56, 78). *)
Definition retry_io (e : errno) : bool := match e with EAGAIN | EWOULDBLOCK => true | _ => false end.
(** errno == EINTR || errno == EAGAIN || errno == EWOULDBLOCK (co_net.cpp 39, 112, 137, 157, 191, 210). *)
Definition retry_net (e : errno) : bool := match e with EINTR | EAGAIN | EWOULDBLOCK => true | _ => false end.
(** One round of the loops of read, write (co_io.cpp 51-68, 73-90), accept, send, recv, recvfrom, sendmsg, recvmsg (co_net.cpp
    33-50, 106-121, 131-146, 151-166, 186-200, 205-219): None: once more after CoYield. *)
Definition round (retry : errno -> bool) (ret : Z) (e : errno) : option Z :=
  if (ret =? -1)%Z then if retry e then None else Some (-1)%Z else Some ret.
(** State of such a call: errno, result. *)
Record iost := mkIo { ierr : errno; ires : option Z }.
(** The call makes one system call (lines as for round). *)
Definition iostep (retry : errno -> bool) (s : iost) (a : ans) : option iost :=
  match ires s with
  | Some _ => None
  | None => let (ret, e) := sysret a (ierr s) in Some (mkIo e (round retry ret e))
  end.

(** init_fd (co_io.cpp 13-35): answers to F_GETFL (flags, -1 on error; only the bit O_NONBLOCK matters) and F_SETFL; the resulting
    fd__ (initially -1, co_io.h 13) and return value. *)
Definition init_fd (fd : Z) (getfl : option bool) (setfl : bool) : Z * Z :=
  match getfl with
  | None => (-1, -1)%Z
  | Some nonblock => if nonblock then (fd, 0%Z) else if setfl then (fd, 0%Z) else (-1, -1)%Z
  end.
(** End of accept (co_net.cpp 47-49): the result of init_fd is not looked at. The co_net returned, by its fd__. *)
Definition accepted_net (ret : Z) (getfl : option bool) (setfl : bool) : option Z :=
  if (ret =? -1)%Z then None else Some (fst (init_fd ret getfl setfl)).

(** ** connect (co_net.cpp 58-102) *)
(** What happened to the connection: established, refused, undecided. *)
Inductive conn := Established | Refused | Undecided.
(** ::connect answers 0, or -1 with errno; select answers: error, nothing ready, the socket is writable: then the kernel has
    decided, one way or the other. *)
Inductive cans := CConn (r : option errno) | CSelErr (e : errno) | CSelNone | CSelReady (ok : bool).
(** Before connect; in the loop (77); returned. *)
Inductive cpc := K0 | KSel | KRet (r : Z).
(** errno; fate of the connection (ghost). *)
Record cst := mkCn { cerr : errno; cpos : cpc; fate : conn }.
(** An fd from 1024 on does not fit in fd_set: FD_SET writes outside it (79-80). *)
Inductive cres := COk (s : cst) | CBadSet.
(** connect: ret > 0 never happens, so 0 is treated like -1 (62-71); select without regard to SO_ERROR (82-100). *)
Definition cstep (fd : nat) (s : cst) (a : cans) : option cres :=
  match cpos s, a with
  | K0, CConn r =>
      let e := match r with None => cerr s | Some e => e end in
      let f := match r with None => Established | Some EINPROGRESS | Some EINTR => Undecided | Some _ => Refused end in
      Some (match e with
            | EINPROGRESS => if fd <? 1024 then COk (mkCn e KSel f) else CBadSet
            | _ => COk (mkCn e (KRet (-1)%Z) f)
            end)
  | KSel, CSelErr e => Some (COk (mkCn e (KRet (-1)%Z) (fate s)))
  | KSel, CSelNone => match fate s with Undecided => Some (COk s) | _ => None end
  | KSel, CSelReady ok =>
      let f := match fate s with Undecided => if ok then Established else Refused | f => f end in
      match fate s, ok with Established, false | Refused, true => None | _, _ => Some (COk (mkCn (cerr s) (KRet 0%Z) f)) end
  | _, _ => None
  end.
(** A step with a proper outcome. *)
Definition cstep_ok (fd : nat) (s : cst) (a : cans) : option cst := match cstep fd s a with Some (COk s') => Some s' | _ => None end.
(** errno when connect is called is whatever an earlier call left. *)
Definition cinit (e : errno) : cst := mkCn e K0 Undecided.

(** ** read_n and write_n (co_client.cpp 25-38, 50-63) *)
(** Bytes are numbers.  Buffer; bytes that will arrive; bytes given to the system (ghost); position: buf.size() - remain, or
    send_size; errno; outcome (true: error). *)
Record nst := mkN { nbuf : list nat; nsrc : list nat; nacc : list nat; npos : nat; nerr : errno; nres : option bool }.
(** Bytes b written at position p of the buffer by ::read. *)
Definition overwrite (buf : list nat) (p : nat) (b : list nat) : list nat := firstn p buf ++ b ++ skipn (p + length b) buf.
(** while (remain > 0), while (send_size < buf.size()) (28, 53). *)
Definition more (s : nst) : nst := if npos s <? length (nbuf s) then s else mkN (nbuf s) (nsrc s) (nacc s) (npos s) (nerr s) (Some false).
(** remain = buf.size() (27). *)
Definition rinit (size : list nat) (src : list nat) (e : errno) : nst := more (mkN size src [] 0 e None).
(** send_size = 0 (52). *)
Definition winit (buf : list nat) (e : errno) : nst := more (mkN buf [] [] 0 e None).
(** ::read(fd, buf + p, c) answering n: is it possible. *)
Definition ok_read (c n : nat) (src : list nat) : bool :=
  (n <=? c) && (n <=? length src) && (Z.of_nat n <=? maxrw)%Z && (negb (n =? 0) || (c =? 0) || match src with [] => true | _ => false end).
(** One system call of read_n: co_io::read in line 30 with its loop. *)
Definition rstep (s : nst) (a : ans) : option nst :=
  match nres s with
  | Some _ => None
  | None =>
      let c := length (nbuf s) - npos s in
      let s1 := match a with
                | Ret n => if ok_read c n (nsrc s)
                           then Some (mkN (overwrite (nbuf s) (npos s) (firstn n (nsrc s))) (skipn n (nsrc s)) (nacc s) (npos s) (nerr s) None)
                           else None
                | Err e => Some (mkN (nbuf s) (nsrc s) (nacc s) (npos s) e None)
                end in
      match s1 with
      | None => None
      | Some s1 =>
          match round retry_io (fst (sysret a (nerr s))) (nerr s1) with
          | None => Some s1
          | Some r => if (r <? 0)%Z then Some (mkN (nbuf s1) (nsrc s1) (nacc s1) (npos s1) (nerr s1) (Some true))
                      else Some (more (mkN (nbuf s1) (nsrc s1) (nacc s1) (npos s1 + Z.to_nat r) (nerr s1) None))
          end
      end
  end.
(** One system call of write_n: co_io::write in line 55 with its loop. *)
Definition wstep (s : nst) (a : ans) : option nst :=
  match nres s with
  | Some _ => None
  | None =>
      let c := length (nbuf s) - npos s in
      let s1 := match a with
                | Ret n => if (n <=? c) && (Z.of_nat n <=? maxrw)%Z
                           then Some (mkN (nbuf s) (nsrc s) (nacc s ++ firstn n (skipn (npos s) (nbuf s))) (npos s) (nerr s) None)
                           else None
                | Err e => Some (mkN (nbuf s) (nsrc s) (nacc s) (npos s) e None)
                end in
      match s1 with
      | None => None
      | Some s1 =>
          match round retry_io (fst (sysret a (nerr s))) (nerr s1) with
          | None => Some s1
          | Some r => if (r <? 0)%Z then Some (mkN (nbuf s1) (nsrc s1) (nacc s1) (npos s1) (nerr s1) (Some true))
                      else Some (more (mkN (nbuf s1) (nsrc s1) (nacc s1) (npos s1 + Z.to_nat r) (nerr s1) None))
          end
      end
  end.

(** ** fcntl, ioctl (co_io.cpp 108-125) *)
(** The third argument the system sees: the va_list, which is an array type, decays to its address. *)
Definition forwarded (arg addr_of_args : Z) : Z := addr_of_args.
(** co_client::read, write (co_client.cpp 15-23, 40-48): count converted to size_t, and whether an error is reported. *)
Definition client_result (ret : Z) : Z * bool := ((ret mod 18446744073709551616)%Z, (ret <? 0)%Z).
