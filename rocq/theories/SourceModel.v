(** How long a pipeline needs the object it was made from: the constructors of co_pipeline (include/cocpp/pipeline/
    co_pipeline.h 110-248), each of which starts a coroutine that runs on its own and outlives the constructor (140, 168,
    199, 230, 247: detach). *)
From Coq Require Import List Arith Bool.
From Verif Require Import Base PipeSpec PipeModel.
Import ListNotations.

(** What a pipeline is made from: a list in braces (co_pipeline.h 233-248), an array (116-120, 171-176), two iterators into
    an array or into a vector, two iterators into a container whose items lie in nodes of their own (std::list, std::map;
    153-169), a container (110-114, 214-231), two bounds and an increment (124-141), a function (178-200, 250-262). *)
Inductive origin := OList | OArray | OPtrs | ONodes | OContainer | OBounds | OFunction.

(** Does the coroutine's closure refer to the items of the caller's object?  237 copies a std::initializer_list, which is a
    pointer to an array the compiler made and a length; 158 copies two iterators (174: two pointers).  220 copies the
    container with its items, 130 the bounds, 184 the function (what the function refers to in turn is not followed). *)
Definition refers (o : origin) : bool := match o with OList | OArray | OPtrs | ONodes => true | _ => false end.
(** Does ++i read the object, too (159)?  In a node container it follows the link in the node. *)
Definition links (o : origin) : bool := match o with ONodes => true | _ => false end.

Section Model.
  Variable V : Type.
  (** The pipeline; does the caller's object still exist; has the coroutine read it after its end (ghost: undefined
      behaviour; the model goes on with the items it had). *)
  Record lst := mkLf { pp : pst V; there : bool; bad : bool }.
  Variables (o : origin) (src : list V) (sz : size) (sts : list (stage V)).

  (** Does this step of the pipeline read the caller's object?  The loop of the source (159-166, 238-243): the item is read
      when it is handed to push, which takes it by value (co_chan.h 160, 187, 202); from the second round on ++i comes
      first. *)
  Definition reads (p : pst V) (l : lbl) : bool :=
    match l with
    | Src => match cts V (stg V p 0) 0 with
             | CSrc => refers o && (match nth_error src (cnt V (stg V p 0)) with Some _ => true | None => links o && (0 <? cnt V (stg V p 0)) end)
             | _ => false
             end
    | _ => false
    end.

  (** A step of the pipeline or of its reader; the end of the caller's object (for a list in braces: the end of the full
      expression it stands in, C++20 [dcl.init.list] 6; for an array or a container: the end of its scope, delete). *)
  Inductive ev := Pipe (l : lbl) | End.
  (** The pipeline has been made, the object exists (co_pipeline.h 148-170, 234-248). *)
  Definition linit : lst := mkLf (pinit V sts) true false.
  (** One event; Pipe is a step of PipeModel.v (co_pipeline.h 124-459). *)
  Definition lstep (s : lst) (e : ev) : option lst :=
    match e with
    | End => if there s then Some (mkLf (pp s) false (bad s)) else None
    | Pipe l => match pstep V (nth_error src) sz sts (pp s) l with
                | Some p => Some (mkLf p (there s) (bad s || (negb (there s) && reads (pp s) l)))
                | None => None
                end
    end.
End Model.
Arguments mkLf {V}. Arguments pp {V}. Arguments there {V}. Arguments bad {V}. Arguments linit {V}. Arguments lstep {V}. Arguments reads {V}.
