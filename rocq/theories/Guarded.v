(** Accesses made only while holding one lock are ordered by happens-before. *)
From Coq Require Import List Arith Bool Lia.
From Verif Require Import RaceSpec RaceLemmas.
Import ListNotations.

Section G.
  Context {sync loc : Type}.
  Notation ev := (ev sync loc).
  Variables (l : sync) (P : ev -> Prop).

  (** [o]: the holder of the lock after the trace. All events in P are known to the holder, or to whoever takes the lock next. *)
  Record guard (tr : list ev) (o : option nat) : Prop := mkG {
    g_know : forall i a, nth_error tr i = Some a -> P a -> match o with Some t => knows tr t i | None => carried tr l i end;
    g_ord : forall i j a b, i < j -> nth_error tr i = Some a -> nth_error tr j = Some b -> P a -> P b -> hb tr i j
  }.
  (** What an event may be, and the holder after it. *)
  Inductive gstep : option nat -> ev -> option nat -> Prop :=
  | gs_in : forall e, ~ releases e l -> gstep (Some (thr e)) e (Some (thr e))
  | gs_other : forall o e, ~ P e -> ~ releases e l -> gstep o e o
  | gs_fail : forall t e, ~ P e -> gstep (Some t) e (Some t)
  | gs_acq : forall e, ~ P e -> acquires e l -> gstep None e (Some (thr e))
  | gs_rel : forall e, ~ P e -> releases e l -> gstep (Some (thr e)) e None.

  Lemma guard_nil : guard [] None.
  Proof. split; intros [|i]; intros; discriminate. Qed.
  Lemma guard_snoc : forall tr o e o', guard tr o -> gstep o e o' -> guard (tr ++ [e]) o'.
  Proof.
    intros tr o e o' [K O] H.
    assert (Ord : (P e -> o = Some (thr e)) -> forall i j a b, i < j -> nth_error (tr ++ [e]) i = Some a -> nth_error (tr ++ [e]) j = Some b -> P a -> P b -> hb (tr ++ [e]) i j).
    { intros He i j a b L A B Pa Pb. apply nth_snoc in B as [(Lj&B)|(->&->)].
      - apply hb_more. apply (O i j a b); auto. eapply nth_less; [|exact A]. lia.
      - apply nth_snoc in A as [(Li&A)|(->&_)]; [|lia]. apply knows_hb. specialize (K _ _ A Pa). now rewrite (He Pb) in K. }
    inversion H; subst; clear H; (split; [|apply Ord; auto; intros; contradiction]); intros i a A Pa;
      apply nth_snoc in A as [(_&A)|(->&->)]; try contradiction; try specialize (K _ _ A Pa).
    - now apply knows_more.
    - apply knows_self.
    - destruct o'; [now apply knows_more|now apply carried_more].
    - now apply knows_more.
    - eapply acquire_knows; eauto.
    - now apply release_carried.
  Qed.
  Inductive gsteps : option nat -> list ev -> option nat -> Prop :=
  | gn : forall o, gsteps o [] o
  | gc : forall o e o1 es o2, gstep o e o1 -> gsteps o1 es o2 -> gsteps o (e :: es) o2.
  Lemma guard_app : forall es tr o o', guard tr o -> gsteps o es o' -> guard (tr ++ es) o'.
  Proof.
    intros es. induction es as [|e es IH]; intros tr o o' G H; inversion H; subst; [now rewrite app_nil_r|].
    replace (tr ++ e :: es) with ((tr ++ [e]) ++ es) by now rewrite <- app_assoc. eapply IH; eauto using guard_snoc.
  Qed.
  Lemma gsteps_other : forall es o, (forall e, In e es -> ~ P e /\ ~ releases e l) -> gsteps o es o.
  Proof.
    intros es. induction es as [|e es IH]; intros o H; [constructor|]. apply gc with o; [|apply IH; intros; apply H; now right].
    apply gs_other; apply H; now left.
  Qed.
End G.
