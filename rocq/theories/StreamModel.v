(** The sizes of a pipeline's channels (include/cocpp/pipeline/co_pipeline.h 62-120, co_pipeline_op.h 42-49). *)
From Coq Require Import List Arith ZArith.
From Verif Require Import Base PipeSpec PipeModel.
Import ListNotations.

(** co_chan(int max_size) (include/cocpp/event/co_chan.h 98-113). *)
Definition chan_of (z : Z) : size := if (z <? 0)%Z then Unlimited else if (z =? 0)%Z then Unbuffered else Fixed (Z.to_nat z).
(** How a pipeline is made: by a constructor with max_chan_size (co_pipeline.h 62-81), or with c | stream(size) (110-120). *)
Inductive made := ByConstructor (z : Z) | ByStream (z : Z).
(** The size of its first channel: the constructors hand max_chan_size on (128, 156, 174, 182, 218, 235); the operators | of
    stream call the constructor without a size (113, 119), size__ (co_pipeline_op.h 44) is read nowhere. *)
Definition first_size (m : made) : size := match m with ByConstructor z => chan_of z | ByStream _ => chan_of (-1) end.
(** The size that was asked for. *)
Definition asked (m : made) : Z := match m with ByConstructor z | ByStream z => z end.
(** How many items are in the channels of a pipeline, which nobody has received yet. *)
Definition in_channels {V} (sts : list (stage V)) (p : pst V) : nat :=
  list_sum (map (fun i => length (buf V (chs V p i))) (seq 0 (S (length sts)))).
