(** Model of co_pipeline (include/cocpp/pipeline/co_pipeline.h 124-459): a source coroutine and one coroutine per stage
    (fork: one per worker and one that joins them), connected by channels.

    A channel operation is one step: it is enabled when the call would return, which is what C21-C25 and C127 prove of co_chan.
    Channels between stages are unlimited (co_chan.h 95: default size -1; co_pipeline.h 75 for map); only the source's
    channel can have another size (co_pipeline.h 63-88).  The reader is whoever uses the channel at the end of the pipeline
    (co_pipeline.h 202-212, 340-344). *)
From Coq Require Import List Arith Bool.
From Verif Require Import Base PipeSpec.
Import ListNotations.

(** Size of the source's channel: unlimited, unbuffered, at most n (co_chan.h 98-113). *)
Inductive size := Unlimited | Unbuffered | Fixed (n : nat).

(** Where a coroutine is: about to fetch the next item of the source; to pop its input; to push v to its output; in the
    second wait of an unbuffered push (co_chan.h 225-227); to join the workers (co_pipeline.h 289-292); to close its
    output; to close its input; finished. *)
Inductive ctl (V : Type) := CSrc | CPop | CPush (v : V) | CWait | CJoin | CCloseOut | CCloseIn | CHalt.
Arguments CSrc {V}. Arguments CPop {V}. Arguments CPush {V}. Arguments CWait {V}. Arguments CJoin {V}.
Arguments CCloseOut {V}. Arguments CCloseIn {V}. Arguments CHalt {V}.

Section Model.
  Variable V : Type.

  (** A channel: data__ and closed__ (co_chan.h 21-22); ghosts: everything ever accepted / delivered, whether its consumer
      closed it, whether its producer closed it when the consumer had not. *)
  Record chan := mkCh { buf : list V; clo : bool; ins : list V; outs : list V; byc : bool; fin : bool }.
  (** Local state of a stage: where its coroutines are ([0] is the one made by the constructor, 1, 2, ... are fork
      workers); the loop counter (source 135/157/183, take 415, skip 441); the group under construction (306-315);
      the result of reduce (388-391). *)
  Record loc := mkL { cts : nat -> ctl V; cnt : nat; part : list V; res : option V }.
  (** [chs i]: the output channel of stage i (0 = source); the reader's list of received items; it saw the end; it
      closed the channel. *)
  Record pst := mkP { chs : nat -> chan; stg : nat -> loc; got : list V; rend : bool; rcl : bool }.

  Variables (gen : nat -> option V) (sz : size) (sts : list (stage V)).

  (** co_chan.h 21-22. *)
  Definition ch0 : chan := mkCh [] false [] [] false false.

  (** Start of each stage's coroutine: map 250-262 and 176-199, filter 346-366, take 411-435 (the loop is not entered when
      take is 0), skip 437-459, group 297-324 (nothing to pop when the group size is 0), reduce 382-397 (line 388), fork
      264-295 (the workers are taken to exist from the start: a coroutine that has not run yet is as good as absent). *)
  Definition start (st : stage V) : loc :=
    match st with
    | STake 0 => mkL (upd (fun _ => CHalt) 0 CCloseOut) 0 [] None
    | SGroup 0 f => mkL (upd (fun _ => CHalt) 0 (CPush (f []))) 0 [] None
    | SReduce _ i => mkL (upd (fun _ => CHalt) 0 CPop) 0 [] (Some i)
    | SFork k _ => mkL (fun j => if Nat.eqb j 0 then CJoin else if j <=? k then CPop else CHalt) 0 [] None
    | _ => mkL (upd (fun _ => CHalt) 0 CPop) 0 [] None
    end.
  (** The stages are numbered from 1; 0 is the source (124-141, 148-164, 172-199, 214-232, 234-248). *)
  Definition pinit : pst :=
    mkP (fun _ => ch0)
        (fun i => match i with
                  | 0 => mkL (upd (fun _ => CHalt) 0 CSrc) 0 [] None
                  | S k => match nth_error sts k with Some st => start st | None => mkL (fun _ => CHalt) 0 [] None end
                  end)
        [] false false.

  (** Coroutine j of a stage goes on at c; no code of its own. *)
  Definition set_ct (l : loc) (j : nat) (c : ctl V) : loc := mkL (upd (cts l) j c) (cnt l) (part l) (res l).

  (** What a stage does with the item [v] it popped: map 253-260; filter 351-357; take 417-420; skip 441-456;
      group 310-318; reduce 389-391; fork worker 274-281. *)
  Definition on_item (st : stage V) (l : loc) (j : nat) (v : V) : loc :=
    match st with
    | SMap f => set_ct l j (CPush (f v))
    | SFilter p => if p v then set_ct l j (CPush v) else l
    | STake _ => set_ct l j (CPush v)
    | SSkip n => if cnt l <? n then mkL (cts l) (cnt l + 1) (part l) (res l) else set_ct l j (CPush v)
    | SGroup n f => if length (part l) + 1 =? n
                    then mkL (upd (cts l) j (CPush (f (part l ++ [v])))) (cnt l) (part l ++ [v]) (res l)
                    else mkL (cts l) (cnt l) (part l ++ [v]) (res l)
    | SReduce f _ => mkL (cts l) (cnt l) (part l) (option_map (fun r => f r v) (res l))
    | SFork _ f => set_ct l j (CPush (f v))
    end.

  (** Its input is closed and empty: map 254-257 and 185-188 and 194, filter 361, take 425-430, skip 444-447 (leaves the
      first loop; the second loop pops again) and 457, group 311-315, reduce 393, fork worker 275-278. *)
  Definition on_eof (st : stage V) (l : loc) (j : nat) : loc :=
    match st with
    | SSkip n => if cnt l <? n then mkL (cts l) n (part l) (res l) else set_ct l j CCloseOut
    | SReduce _ _ => match res l with Some r => set_ct l j (CPush r) | None => l end
    | SFork _ _ => set_ct l j CHalt
    | _ => set_ct l j CCloseOut
    end.

  (** push returned true: back to the loop (take 415: next index); reduce 394. *)
  Definition on_pushed (st : stage V) (l : loc) (j : nat) : loc :=
    match st with
    | STake n => mkL (upd (cts l) j (if cnt l + 1 <? n then CPop else CCloseOut)) (cnt l + 1) (part l) (res l)
    | SGroup 0 f => mkL (upd (cts l) j (CPush (f []))) (cnt l) [] (res l)
    | SGroup _ _ => mkL (upd (cts l) j CPop) (cnt l) [] (res l)
    | SReduce _ _ => set_ct l j CCloseOut
    | _ => set_ct l j CPop
    end.

  (** push returned false: map 189-194, filter 354-361, take 420-432, skip 452-457, group 316-320, reduce 393-394, fork
      worker 279-282. *)
  Definition on_fail (st : stage V) (l : loc) (j : nat) : loc :=
    match st with
    | SGroup _ _ => set_ct l j CCloseIn
    | SFork _ _ => set_ct l j CHalt
    | _ => set_ct l j CCloseOut
    end.

  (** After closing the output: take 432-433 closes its input too; the others end. *)
  Definition after_close (st : stage V) : ctl V := match st with STake _ => CCloseIn | _ => CHalt end.

  (** Assignments to the state above; no code of their own. *)
  Definition set_ch (s : pst) (i : nat) (c : chan) : pst := mkP (upd (chs s) i c) (stg s) (got s) (rend s) (rcl s).
  (** See set_ch. *)
  Definition set_st (s : pst) (i : nat) (l : loc) : pst := mkP (chs s) (upd (stg s) i l) (got s) (rend s) (rcl s).

  (** Channel operations (co_chan.h 160-278). *)
  Definition put (c : chan) (v : V) : chan := mkCh (buf c ++ [v]) (clo c) (ins c ++ [v]) (outs c) (byc c) (fin c).
  (** The front is taken: co_chan.h 259-260. *)
  Definition drop1 (c : chan) (v : V) (r : list V) : chan := mkCh r (clo c) (ins c) (outs c ++ [v]) (byc c) (fin c).
  (** close by the producer: co_chan.h 272-278. *)
  Definition close_p (c : chan) : chan := mkCh (buf c) true (ins c) (outs c) (byc c) (fin c || negb (byc c)).
  (** close by the consumer: the same lines. *)
  Definition close_c (c : chan) : chan := mkCh (buf c) true (ins c) (outs c) true (fin c).
  (** Is there room in the source's channel (co_chan.h 169, 187, 211)? *)
  Definition room (c : chan) : bool :=
    match sz with
    | Unlimited => true
    | Unbuffered => match buf c with [] => true | _ => false end
    | Fixed n => length (buf c) <? n
    end.

  (** All workers of a fork have ended (co_pipeline.h 289-292). *)
  Definition joined (st : stage V) (l : loc) : bool :=
    match st with
    | SFork k _ => forallb (fun j => match cts l j with CHalt => true | _ => false end) (seq 1 k)
    | _ => false
    end.

  (** Source coroutine: 124-141, 148-164, 172-199, 214-232, 234-248. *)
  Definition step_src (s : pst) : option pst :=
    let l := stg s 0 in
    match cts l 0 with
    | CSrc => match gen (cnt l) with
              | Some v => Some (set_st s 0 (set_ct l 0 (CPush v)))
              | None => Some (set_st s 0 (set_ct l 0 CCloseOut))
              end
    | CPush v => if clo (chs s 0) then Some (set_st s 0 (set_ct l 0 CCloseOut))
                 else if room (chs s 0)
                 then Some (set_st (set_ch s 0 (put (chs s 0) v)) 0
                       (mkL (upd (cts l) 0 (match sz with Unbuffered => CWait | _ => CSrc end)) (cnt l + 1) (part l) (res l)))
                 else None
    | CWait => if clo (chs s 0) then Some (set_st s 0 (set_ct l 0 CSrc))
               else match buf (chs s 0) with [] => Some (set_st s 0 (set_ct l 0 CSrc)) | _ => None end
    | CCloseOut => Some (set_st (set_ch s 0 (close_p (chs s 0))) 0 (set_ct l 0 CHalt))
    | _ => None
    end.

  (** Stage [S k], coroutine [j]. *)
  Definition step_stage (s : pst) (k j : nat) : option pst :=
    match nth_error sts k with
    | None => None
    | Some st =>
        let l := stg s (S k) in
        match cts l j with
        | CPop => match buf (chs s k) with
                  | v :: r => Some (set_st (set_ch s k (drop1 (chs s k) v r)) (S k) (on_item st l j v))
                  | [] => if clo (chs s k) then Some (set_st s (S k) (on_eof st l j)) else None
                  end
        | CPush v => if clo (chs s (S k)) then Some (set_st s (S k) (on_fail st l j))
                     else Some (set_st (set_ch s (S k) (put (chs s (S k)) v)) (S k) (on_pushed st l j))
        | CJoin => if joined st l then Some (set_st s (S k) (set_ct l j CCloseOut)) else None
        | CCloseOut => Some (set_st (set_ch s (S k) (close_p (chs s (S k)))) (S k) (set_ct l j (after_close st)))
        | CCloseIn => Some (set_st (set_ch s k (close_c (chs s k))) (S k) (set_ct l j CHalt))
        | CSrc | CWait | CHalt => None
        end
    end.

  (** A step of a coroutine; the reader pops; the reader closes the channel it reads. *)
  Inductive lbl := Src | Run (k j : nat) | RPop | RClose.

  (** The channel at the end of the pipeline (co_pipeline.h 340-344). *)
  Definition last_ch (s : pst) : chan := chs s (length sts).

  (** Reader: to 202-212 / range-for over the channel, or any user of the end channel. *)
  Definition pstep (s : pst) (a : lbl) : option pst :=
    match a with
    | Src => step_src s
    | Run k j => step_stage s k j
    | RPop => if rend s then None
              else match buf (last_ch s) with
                   | v :: r => Some (mkP (upd (chs s) (length sts) (drop1 (last_ch s) v r)) (stg s) (got s ++ [v]) false (rcl s))
                   | [] => if clo (last_ch s) then Some (mkP (chs s) (stg s) (got s) true (rcl s)) else None
                   end
    | RClose => if rcl s then None
                else Some (mkP (upd (chs s) (length sts) (close_c (last_ch s))) (stg s) (got s) (rend s) true)
    end.
End Model.
