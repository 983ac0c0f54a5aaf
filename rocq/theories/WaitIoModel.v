(** Which answers of the system the transfer functions of co_io and co_net wait out, function by function (source/cocpp/io/co_io.cpp 49-91,
    co_net.cpp 31-51, 104-220).  Each is the loop of IoModel.v with its own test of errno; sendto has no loop. *)
From Coq Require Import List ZArith Bool.
From Verif Require Import Base IoSpec IoModel.
Import ListNotations.

(** The functions: co_io.cpp 49, 71; co_net.cpp 31, 104, 124, 129, 149, 184, 203. *)
Inductive iofun := FRead | FWrite | FAccept | FSend | FSendto | FRecv | FRecvfrom | FSendmsg | FRecvmsg.
(** The test under which the loop goes on: co_io.cpp 56, 78; co_net.cpp 39, 112, 137, 157, 191, 210; sendto (co_net.cpp 124-127) makes one call and returns
    its result whatever it is. *)
Definition fun_retry (f : iofun) : errno -> bool :=
  match f with
  | FRead | FWrite => retry_io
  | FSendto => fun _ => false
  | _ => retry_net
  end.
(** A call of f; errno was e before. *)
Definition fun_step (f : iofun) : iost -> ans -> option iost := iostep (fun_retry f).
(** See fun_step; co_io.cpp 51, 73, co_net.cpp 33, 106, 131, 151, 186, 205: nothing has been called yet. *)
Definition fun_init (e : errno) : iost := mkIo e None.
