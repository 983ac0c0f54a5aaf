(** Property C27: range-for over a co_chan. *)
From Coq Require Import List Arith Bool ZArith Lia.
From Verif Require Import Base LinSpec HistSpec Monitor MonitorProofs ChanSpec ChanModel ChanProofs ChanIterModel ChanIterProofs.
Import ListNotations.

(** Witness: unlimited channel; 1 pushes 10 and 20 and closes, the loop of coroutine 9 visits both and stops. *)
Definition pushes (v : val) : list ilbl := [IL (MCall 1 (OPush v)); IL (MRun 1 false); IL (MLeave 1)].
Definition loop1 : list ilbl :=
  [IGo; IL (MRun 9 false); IL (MLeave 9); IGo; IL (MRun 9 false); IL (MLeave 9)].
Definition empt : list ilbl := [IGo; IL (MRun 9 false); IL (MLeave 9)].
Definition iter_demo : list ilbl :=
  pushes 10 ++ pushes 20 ++ loop1 ++ [IGo] ++
  [IL (MCall 1 OClose); IL (MRun 1 false); IL (MLeave 1)] ++
  loop1 ++ empt ++ [IGo] ++ loop1 ++ empt.
Example iter_demo_ok :
  option_map (fun s => (ip s, visited s, iub s)) (run (istep (kind_of_size (-1)) 9) iinit iter_demo)
  = Some (PStop, [10; 20], false).
Proof. vm_compute. reflexivity. Qed.

(** The loop never dereferences an empty iterator; at each instant what it has visited is what its pops took,
    except for the one value it is about to visit; *)
Theorem iter_visits_what_it_takes : forall size c ls s,
  run (istep (kind_of_size size) c) iinit ls = Some s ->
  iub s = false /\
  exists cur, taken_by (mhist (ich s)) c = visited s ++ cur /\ length cur <= 1 /\
    (ip s = PNext \/ ip s = PStop -> cur = []).
Proof.
  intros z c ls s Hr. destruct (iinv_run _ c (kind_of_size_ok z) ls s Hr) as [_ Hu Hc]. split; [exact Hu|].
  unfold cst_ok in Hc.
  destruct (ip s) as [| |[v|]|[v|]|[v|]|[v|]|[v|]|]; destruct (ths (ich s) c) as [|[] |? []|? []|[] []];
    try contradiction; intuition;
    first [ exists []; rewrite app_nil_r; simpl; solve [intuition auto]
          | eexists [_]; split; [eassumption|]; simpl; split; [lia|intros [?|?]; discriminate] ].
Qed.
Print Assumptions iter_visits_what_it_takes.

(** ... and it stops exactly at the end of the stream: the channel is closed, everything accepted
    has been delivered, and everything the loop took was visited. *)
Theorem iter_stops_at_end : forall size c ls s,
  run (istep (kind_of_size size) c) iinit ls = Some s -> ip s = PStop ->
  visited s = taken_by (mhist (ich s)) c /\ is_closed (mhist (ich s)) = true /\
  delivered (mhist (ich s)) = accepted (mhist (ich s)).
Proof.
  intros z c ls s Hr E. destruct (iinv_run _ c (kind_of_size_ok z) ls s Hr) as [HI _ Hc].
  unfold cst_ok in Hc. rewrite E in Hc. destruct (ths (ich s) c); try contradiction.
  destruct Hc as (Ht&H1&H2). rewrite (c_closed _ _ HI), (c_buf _ _ HI), H2, app_nil_r. auto.
Qed.
Print Assumptions iter_stops_at_end.

(** ... and once its pop has answered "nothing", six further steps of the loop leave it. *)
Theorem iter_leaves_on_none : forall size c ls s,
  run (istep (kind_of_size size) c) iinit ls = Some s -> ip s = PCmp None ->
  exists s', run (istep (kind_of_size size) c) s
    [IGo; IL (MRun c false); IL (MLeave c); IGo; IL (MRun c false); IL (MLeave c)] = Some s' /\ ip s' = PStop.
Proof.
  intros z c ls s Hr E. pose proof (iinv_run _ c (kind_of_size_ok z) ls s Hr) as [HI _ Hc].
  unfold cst_ok in Hc. rewrite E in Hc. destruct (ths (ich s) c) eqn:Et; try contradiction.
  destruct Hc as (_&H1&H2). destruct s as [[[bf cl] th q w h] p vs u]. simpl in *. subst.
  unfold chan_step. simpl. rewrite Et.
  repeat (first [progress simpl|rewrite Nat.eqb_refl|rewrite upd_same]).
  eexists. split; reflexivity.
Qed.
Print Assumptions iter_leaves_on_none.
Example iter_none_case : exists s,
  run (istep (kind_of_size 1) 9) iinit
    [IL (MCall 1 OClose); IL (MRun 1 false); IGo; IL (MRun 9 false); IL (MLeave 9)] = Some s /\ ip s = PCmp None.
Proof. eexists. split; vm_compute; reflexivity. Qed.
