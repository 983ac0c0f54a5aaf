(** The three timed mutexes obey the laws of TimedProofs.v; what their answers mean for the caller. *)
From Coq Require Import List Arith Bool Lia NArith.
From Verif Require Import Base SpinInv LinSpec LinLemmas TimedSpec TimedModel TimedProofs MutexSpec MutexModel MutexProofs
  RecMutexSpec SharedMutexSpec SpinObj SpinObjProofs RecMutexModel RecMutexProofs SharedMutexModel SharedMutexProofs.
Import ListNotations.

(** ** co_mutex *)
Definition top (_ : st) : Prop := True.
Definition m_left (s : st) (t : tid) : nat :=
  match pcs s t with TrySpin => 3 | TryBody => 2 | TryRet _ => 1 | _ => 0 end.

Lemma mop_eq : forall a b, mop_eqb a b = true <-> a = b.
Proof. intros [] []; simpl; split; congruence. Qed.
Lemma mres_eq : forall a b, mres_eqb a b = true <-> a = b.
Proof. intros [] []; simpl; split; congruence. Qed.
Lemma sop_eq : forall a b, sop_eqb a b = true <-> a = b.
Proof. intros [] []; simpl; split; congruence. Qed.
Lemma sres_eq : forall a b, sres_eqb a b = true <-> a = b.
Proof. intros [] []; simpl; split; congruence. Qed.

Lemma m_laws : laws mutex_face mop_eqb mres_eqb RTrue RFalse top.
Proof.
  constructor; cbn [mutex_face f_step f_hist f_call f_run f_who f_in f_ret f_mark f_true f_try].
  - exact mop_eq.
  - exact mres_eq.
  - intros; exact I.
  - intros [t o|t b] H; [eauto|discriminate].
  - reflexivity.
  - reflexivity.
  - intros u t o H. cbn [step]. destruct (pcs u t); cbn in H; congruence.
  - intros u t o u' H. cbn [step] in H. destruct (pcs u t) eqn:E; try discriminate. injection H as <-.
    cbn. rewrite upd_same. repeat split; auto; [now destruct o|]. intros x Hx. now rewrite upd_other.
  - intros u [t o|t late] u' _ Hr H; [discriminate|]. cbn [step] in H. unfold step_run, tas in H.
    destruct (pcs u t) eqn:E; try discriminate; cbn [m_in m_ret] in *;
      repeat match type of H with
      | (if ?b then _ else _) = _ => destruct b
      | match ?b with _ => _ end = _ => destruct b
      end; try discriminate; injection H as <-; cbn [set_pc set_spin set_owner set_q set_waiting log clear hist pcs];
      rewrite ?upd_same; eexists;
      first [exists []; split; [reflexivity|split; [reflexivity|]]
            |eexists [_]; split; [reflexivity|split; [reflexivity|]]
            |eexists [_; _]; split; [reflexivity|split; [reflexivity|]]];
      (split; [intros x o' HH; cbn in HH; intuition discriminate|]);
      (split; [intros x Hx; now rewrite upd_other|]);
      (split; [intros x a HH; cbn in HH; intuition (try discriminate); congruence|]);
      cbn [m_in]; split; auto; intros x o' r HH; cbn in HH; intuition discriminate.
  - intros u t o r _ Hi Ht Hr. destruct (pcs u t); try discriminate; cbn in *; injection Hi as <-; try discriminate.
    injection Hr as <-. now destruct b.
Qed.

Lemma m_laws2 : laws2 mutex_face top m_left.
Proof.
  constructor; cbn [mutex_face f_step f_hist f_call f_run f_who f_in f_ret f_mark f_true f_try].
  - intros u t o u' Ht H. cbn [step] in H. destruct (pcs u t) eqn:E; try discriminate. injection H as <-.
    unfold m_left. cbn. rewrite upd_same. destruct o; cbn; lia.
  - intros u [t o|t late] u' x H Hx; cbn [step] in H.
    + destruct (pcs u t) eqn:E; try discriminate. injection H as <-. unfold m_left. cbn. now rewrite upd_other.
    + unfold step_run, tas in H.
      destruct (pcs u t) eqn:E; try discriminate;
      repeat match type of H with
      | (if ?b then _ else _) = _ => destruct b
      | match ?b with _ => _ end = _ => destruct b
      end; try discriminate; injection H as <-; unfold m_left; cbn; now rewrite upd_other.
  - intros u [t o0|t late] u' _ H Hr o Hi Ht Hret; [discriminate|]. cbn [step] in H. unfold step_run, tas in H.
    destruct (pcs u t) eqn:E; try discriminate; cbn [m_in m_ret] in *; try (injection Hi as <-; discriminate); try discriminate;
      repeat match type of H with
      | (if ?b then _ else _) = _ => destruct b
      | match ?b with _ => _ end = _ => destruct b
      end; try discriminate; injection H as <-; unfold m_left; cbn; rewrite upd_same, E; lia.
  - intros u t o _ Hi Ht. unfold m_left. destruct (pcs u t); cbn in *; try (injection Hi as <-; discriminate); try discriminate; lia.
Qed.

(** ** Objects of SpinObj *)
Section SpinLaws.
  Variables (D Op Res Aux Loc : Type).
  Variable entry : Op -> Loc.
  Variable seg : tid -> Op -> Loc -> bool -> D -> sout D Op Res Aux Loc.
  Variables (isT : Res -> bool) (tr : Op -> bool) (op_eqb : Op -> Op -> bool) (res_eqb : Res -> Res -> bool) (rt rf : Res).
  Variable okl : Op -> Loc -> Prop.
  Hypothesis Hop : forall a b, op_eqb a b = true <-> a = b.
  Hypothesis Hres : forall a b, res_eqb a b = true <-> a = b.
  Hypothesis Hentry : forall o, okl o (entry o).
  Hypothesis Hseg : forall t o l b d, okl o l ->
    match seg t o l b d with
    | SYield _ l' => okl o l' /\ tr o = false
    | SPark _ _ l' => okl o l' /\ tr o = false
    | SFin _ _ gr r => tr o = true -> gr = [] /\ r = if isT r then rt else rf
    end.
  Notation face' := (spin_face (fstep entry seg) isT tr).

  Definition okp (p : fpc Op Res Loc) : Prop :=
    match p with
    | FOut => True
    | FWant o l | FIn o l => okl o l
    | FRelY o l | FYield o l | FMark o l | FRelP o l | FPark o l => okl o l /\ tr o = false
    | FUn o gr r => tr o = true -> gr = [] /\ r = if isT r then rt else rf
    end.
  Definition okI (s : fst_ D Op Res Aux Loc) : Prop := forall t, okp (fpcs s t).
  Definition s_left (s : fst_ D Op Res Aux Loc) (t : tid) : nat :=
    match fpcs s t with FWant _ _ => 3 | FIn _ _ => 2 | FUn _ _ _ => 1 | _ => 0 end.

  Lemma log_lin_in : forall lin (h : list (ev Op Res Aux)), exists es, log_lin lin h = es ++ h /\
    forall e, In e es -> exists t o r, e = ELin t o r.
  Proof.
    induction lin as [|x lin IH]; intros h; [exists []; split; [reflexivity|contradiction]|].
    cbn [log_lin fold_left]. destruct (IH (ELin (fst (fst x)) (snd (fst x)) (snd x) :: h)) as (es&E&H).
    unfold log_lin in E. rewrite E. exists (es ++ [ELin (fst (fst x)) (snd (fst x)) (snd x)]). rewrite <- app_assoc.
    split; [reflexivity|]. intros e He. apply in_app_or in He. destruct He as [He|[<-|[]]]; eauto.
  Qed.
  Lemma log_xs_in : forall t xs (h : list (ev Op Res Aux)), exists es, log_xs t xs h = es ++ h /\
    forall e, In e es -> exists a, e = EAux t a.
  Proof.
    intros t. induction xs as [|x xs IH]; intros h; [exists []; split; [reflexivity|contradiction]|].
    cbn [log_xs fold_left]. destruct (IH (EAux t x :: h)) as (es&E&H).
    unfold log_xs in E. rewrite E. exists (es ++ [EAux t x]). rewrite <- app_assoc.
    split; [reflexivity|]. intros e He. apply in_app_or in He. destruct He as [He|[<-|[]]]; eauto.
  Qed.

  Lemma okI_upd : forall b d m f t p h, (forall x, okp (f x)) -> okp p -> okI (mkF b d m (upd f t p) h).
  Proof.
    intros b d m f t p h H Hp x. cbn [fpcs]. destruct (Nat.eq_dec x t) as [->|E]; [now rewrite upd_same|].
    rewrite upd_other by exact E. apply H.
  Qed.

  Lemma okI_step : forall u l u', okI u -> fstep entry seg u l = Some u' -> okI u'.
  Proof.
    intros u [t o|t b] u' HI H; cbn [fstep] in H.
    - destruct (fpcs u t); try discriminate. injection H as <-. apply okI_upd; [exact HI|]. apply Hentry.
    - pose proof (HI t) as Ht. destruct (fpcs u t) as [|o l|o l|o l|o l|o l|o l|o l|o gr r]; cbn [okp] in Ht; try discriminate.
      + destruct (fspin u); [discriminate|]. injection H as <-. apply okI_upd; auto.
      + pose proof (@Hseg t o l b (fdat u) Ht) as Hg. destruct (seg t o l b (fdat u)); injection H as <-; apply okI_upd; auto.
      + injection H as <-. apply okI_upd; auto.
      + destruct (fmark u t); [discriminate|]. injection H as <-. apply okI_upd; auto. apply Ht.
      + injection H as <-. apply okI_upd; auto.
      + injection H as <-. apply okI_upd; auto.
      + destruct (fmark u t); [discriminate|]. injection H as <-. apply okI_upd; auto. apply Ht.
      + destruct gr as [|g gr]; injection H as <-; apply okI_upd; cbn [okp]; auto.
        intros E. destruct (Ht E). discriminate.
  Qed.

  Lemma s_laws : laws face' op_eqb res_eqb rt rf okI.
  Proof.
    constructor; cbn [spin_face f_step f_hist f_call f_run f_who f_in f_ret f_mark f_true f_try]; auto.
    - exact okI_step.
    - intros [t o|t b] H; [eauto|discriminate].
    - intros u t o H. cbn [fstep]. destruct (fpcs u t); cbn in H; congruence.
    - intros u t o u' H. cbn [fstep] in H. destruct (fpcs u t) eqn:E; try discriminate. injection H as <-.
      cbn [fpcs fhist]. rewrite upd_same. repeat split; auto. intros x Hx. now rewrite upd_other.
    - intros u [t o|t b] u' HI Hr H; [discriminate|]. cbn [fstep] in H. pose proof (HI t) as Ht.
      destruct (fpcs u t) as [|o l|o l|o l|o l|o l|o l|o l|o gr r] eqn:E; cbn [okp s_in s_ret] in *; try discriminate.
      all: match type of H with
           | (match seg _ _ _ _ _ with _ => _ end) = _ => idtac
           | _ => repeat match type of H with
                  | (if ?b then _ else _) = _ => destruct b
                  | match ?b with _ => _ end = _ => destruct b
                  end; try discriminate; injection H as <-; cbn [fpcs fhist]; rewrite ?upd_same; exists o;
                  first [exists []; split; [reflexivity|]; split; [reflexivity|]|eexists [_]; split; [reflexivity|]; split; [reflexivity|]];
                  (split; [intros x o' HH; cbn in HH; intuition discriminate|]);
                  (split; [intros x Hx; now rewrite upd_other|]);
                  (split; [intros x a HH; cbn in HH; intuition discriminate|]);
                  cbn [s_in]; split; auto; intros x o' r' HH; cbn in HH; intuition discriminate
           end.
      pose proof (@Hseg t o l b (fdat u) Ht) as Hg. destruct (seg t o l b (fdat u)) as [d l'|d xs l'|d lin gr r];
        injection H as <-; cbn [fpcs fhist]; rewrite ?upd_same; exists o.
      + exists []. repeat split; auto; try contradiction. intros x Hx. now rewrite upd_other.
      + destruct (log_xs_in t xs (fhist u)) as (es&Ees&Hes). exists es. split; [reflexivity|]. split; [exact Ees|].
        split; [intros x o' HH; apply Hes in HH; destruct HH; discriminate|].
        split; [intros x Hx; now rewrite upd_other|].
        split; [intros x a HH; apply Hes in HH; destruct HH as [a' HH]; injection HH as -> ->; split; [reflexivity|apply Hg]|].
        split; [|reflexivity]. intros x o' r HH. apply Hes in HH. destruct HH; discriminate.
      + destruct (log_lin_in lin (fhist u)) as (es&Ees&Hes). exists es. split; [reflexivity|]. split; [exact Ees|].
        split; [intros x o' HH; apply Hes in HH; destruct HH as (?&?&?&?); discriminate|].
        split; [intros x Hx; now rewrite upd_other|].
        split; [intros x a HH; apply Hes in HH; destruct HH as (?&?&?&?); discriminate|].
        split; [|reflexivity]. intros x o' r' HH. apply Hes in HH. destruct HH as (?&?&?&?); discriminate.
    - intros u t o r HI Hi Ht Hr. pose proof (HI t) as Hp.
      destruct (fpcs u t) as [|o' l|o' l|o' l|o' l|o' l|o' l|o' l|o' [|g gr] r']; cbn in *; try discriminate.
      injection Hi as ->. injection Hr as ->. apply Hp; exact Ht.
  Qed.

  Lemma s_laws2 : laws2 face' okI s_left.
  Proof.
    constructor; cbn [spin_face f_step f_hist f_call f_run f_who f_in f_ret f_mark f_true f_try].
    - intros u t o u' Ht H. cbn [fstep] in H. destruct (fpcs u t) eqn:E; try discriminate. injection H as <-.
      unfold s_left. cbn [fpcs]. rewrite upd_same. lia.
    - intros u [t o|t b] u' x H Hx; cbn [fstep] in H.
      + destruct (fpcs u t) eqn:E; try discriminate. injection H as <-. unfold s_left. cbn [fpcs]. now rewrite upd_other.
      + destruct (fpcs u t) eqn:E; try discriminate;
        repeat match type of H with
        | (if ?b then _ else _) = _ => destruct b
        | match ?b with _ => _ end = _ => destruct b
        end; try discriminate; injection H as <-; unfold s_left; cbn [fpcs]; now rewrite upd_other.
    - intros u [t o|t b] u' HI H Hr o' Hi Ht Hret; [discriminate|]. cbn [fstep] in H. pose proof (HI t) as Hp.
      destruct (fpcs u t) as [|o l|o l|o l|o l|o l|o l|o l|o [|g gr] r] eqn:E; cbn [s_in s_ret okp] in *; try discriminate;
        try (injection Hi as ->; destruct Hp; congruence).
      + destruct (fspin u); [discriminate|]. injection H as <-. unfold s_left. cbn [fpcs]. rewrite upd_same, E. lia.
      + injection Hi as ->. pose proof (@Hseg t o' l b (fdat u) Hp) as Hg.
        destruct (seg t o' l b (fdat u)); injection H as <-; unfold s_left; cbn [fpcs]; rewrite upd_same, E;
          try (destruct Hg; congruence); lia.
    - intros u t o HI Hi Ht. unfold s_left. pose proof (HI t) as Hp.
      destruct (fpcs u t); cbn [s_in okp] in *; try discriminate; try (injection Hi as ->; destruct Hp; congruence); lia.
  Qed.
End SpinLaws.

Definition r_okl (o : mop) (l : rloc) : Prop :=
  match l with RFirst | RTry | RLoop => o = OLock | RTryL => o = OTry | RUn => o = OUnlock end.
Lemma r_seg_ok : forall t o l b d, r_okl o l ->
  match rseg t o l b d with
  | SYield _ l' => r_okl o l' /\ mop_eqb OTry o = false
  | SPark _ _ l' => r_okl o l' /\ mop_eqb OTry o = false
  | SFin _ _ gr r => mop_eqb OTry o = true -> gr = [] /\ r = if mres_eqb r RTrue then RTrue else RFalse
  end.
Proof.
  intros t o l b d H. destruct l; cbn [r_okl] in H; subst o; cbn [rseg]; unfold rpark, rtake;
    repeat match goal with
    | _ => progress cbn [mres_eqb mop_eqb]
    | |- context [match ro ?d with _ => _ end] => destruct (ro d)
    | |- context [if ?b then _ else _] => destruct b
    | |- context [match rq ?d with _ => _ end] => destruct (rq d)
    end; cbn; auto; try (intros; discriminate).
Qed.
Lemma r_entry_ok : forall o, r_okl o (rentry o).
Proof. now intros []. Qed.
Definition r_I := okI rdat mop mres maux rloc (fun r => mres_eqb r RTrue) (mop_eqb OTry) RTrue RFalse r_okl.
Definition r_left := @s_left rdat mop mres maux rloc.
Lemma r_laws : laws rec_face mop_eqb mres_eqb RTrue RFalse r_I.
Proof. apply s_laws; [exact mop_eq|exact mres_eq|exact r_entry_ok|exact r_seg_ok]. Qed.
Lemma r_laws2 : laws2 rec_face r_I r_left.
Proof. apply s_laws2; exact r_seg_ok. Qed.

Definition s_okl (o : sop) (l : sloc) : Prop :=
  match l with
  | LW1 | LW2 | LW3 => o = WLock | LWt => o = WTry | LWu => o = WUnlock
  | LS1 | LS2 | LS3 => o = SLock | LSt => o = STry | LSu => o = SUnlock
  end.
Definition s_try (o : sop) : bool := sop_eqb WTry o || sop_eqb STry o.
Lemma s_seg_ok : forall t o l b d, s_okl o l ->
  match sseg t o l b d with
  | SYield _ l' => s_okl o l' /\ s_try o = false
  | SPark _ _ l' => s_okl o l' /\ s_try o = false
  | SFin _ _ gr r => s_try o = true -> gr = [] /\ r = if sres_eqb r STrue then STrue else SFalse
  end.
Proof.
  intros t o l b d H. destruct l; cbn [s_okl] in H; subst o; cbn [sseg]; unfold spark, sloop, wtake, stake, srel;
    repeat match goal with
    | _ => progress cbn [sres_eqb s_try sop_eqb orb]
    | |- context [match sow ?d with _ => _ end] => destruct (sow d)
    | |- context [wake_up_waiters ?d] => destruct (wake_up_waiters d)
    | |- context [match sty ?d with _ => _ end] => destruct (sty d)
    | |- context [if ?b then _ else _] => destruct b
    end; cbn; auto; try (intros; discriminate).
Qed.
Lemma s_entry_ok : forall o, s_okl o (sentry o).
Proof. now intros []. Qed.
Definition s_I := okI sdat sop sres saux sloc (fun r => sres_eqb r STrue) s_try STrue SFalse s_okl.
Definition sh_left := @s_left sdat sop sres saux sloc.
Lemma sh_laws : laws shared_face sop_eqb sres_eqb STrue SFalse s_I.
Proof. apply s_laws; [exact sop_eq|exact sres_eq|exact s_entry_ok|exact s_seg_ok]. Qed.
Lemma sh_laws2 : laws2 shared_face s_I sh_left.
Proof. apply s_laws2; exact s_seg_ok. Qed.

(** ** What the answer means *)
Lemma holding_own : forall es h t, holding (es ++ h) t = holding (TimedSpec.own t es ++ h) t.
Proof.
  induction es as [|e es IH]; intros h t; [reflexivity|]. unfold TimedSpec.own in *. cbn [filter app].
  destruct (by_tid t e) eqn:E; unfold by_tid in E.
  - destruct e as [u []|u o r|u [] []|u a]; cbn [app holding]; rewrite ?IH; auto.
  - rewrite Nat.eqb_sym in E. destruct e as [u []|u o r|u [] []|u a]; cbn [app holding]; rewrite ?E; apply IH.
Qed.
Lemma holding_attempts : forall t h n, holding (attempts t OTry RFalse n ++ h) t = holding h t.
Proof. intros t h n. induction n as [|n IH]; [reflexivity|]. cbn. exact IH. Qed.
Lemma m_answer : forall c : tcall mop mres maux, c_o c = OTry -> tcall_ok RTrue RFalse c ->
  holding (c_h1 c) (c_t c) = c_ans c || holding (c_h0 c) (c_t c).
Proof.
  intros c Eo (es&E&H). rewrite E, holding_own. rewrite Eo in H. destruct (c_ans c).
  - destruct H as [-> _]. cbn. now rewrite Nat.eqb_refl.
  - destruct H as (la&be&_&_&->&_). now rewrite holding_attempts.
Qed.

Lemma depth_own : forall es h t, depth (es ++ h) t = depth (TimedSpec.own t es ++ h) t.
Proof.
  induction es as [|e es IH]; intros h t; [reflexivity|]. unfold TimedSpec.own in *. cbn [filter app].
  destruct (by_tid t e) eqn:E; unfold by_tid in E.
  - destruct e as [u []|u o r|u [] []|u a]; cbn [app depth]; rewrite ?IH; auto.
  - rewrite Nat.eqb_sym in E. destruct e as [u []|u o r|u [] []|u a]; cbn [app depth]; rewrite ?E; apply IH.
Qed.
Lemma depth_attempts : forall t h n, depth (attempts t OTry RFalse n ++ h) t = depth h t.
Proof. intros t h n. induction n as [|n IH]; [reflexivity|]. cbn. exact IH. Qed.
Lemma r_answer : forall c : tcall mop mres maux, c_o c = OTry -> tcall_ok RTrue RFalse c ->
  depth (c_h1 c) (c_t c) = (depth (c_h0 c) (c_t c) + if c_ans c then 1 else 0)%N.
Proof.
  intros c Eo (es&E&H). rewrite E, depth_own. rewrite Eo in H. destruct (c_ans c).
  - destruct H as [-> _]. cbn [attempt app depth]. rewrite Nat.eqb_refl, depth_attempts. reflexivity.
  - destruct H as (la&be&_&_&->&_). rewrite depth_attempts. lia.
Qed.

Lemma hold_own : forall es h t, hold (es ++ h) t = hold (TimedSpec.own t es ++ h) t.
Proof.
  induction es as [|e es IH]; intros h t; [reflexivity|]. unfold TimedSpec.own in *. cbn [filter app].
  destruct (by_tid t e) eqn:E; unfold by_tid in E.
  - destruct e as [u []|u o r|u [] []|u a]; cbn [app hold]; rewrite ?IH; auto.
  - rewrite Nat.eqb_sym in E. destruct e as [u []|u o r|u [] []|u a]; cbn [app hold]; rewrite ?E; apply IH.
Qed.
Lemma hold_attempts : forall t o h n, s_try o = true -> hold (attempts t o SFalse n ++ h) t = hold h t.
Proof. intros t o h n Ho. induction n as [|n IH]; [reflexivity|]. destruct o; try discriminate; cbn; exact IH. Qed.
Definition mode (o : sop) : bool := match o with WTry => true | _ => false end.
Lemma s_answer : forall c : tcall sop sres saux, s_try (c_o c) = true -> tcall_ok STrue SFalse c ->
  hold (c_h1 c) (c_t c) = if c_ans c then Some (mode (c_o c)) else hold (c_h0 c) (c_t c).
Proof.
  intros c Eo (es&E&H). rewrite E, hold_own. destruct (c_ans c).
  - destruct H as [-> _]. destruct (c_o c); try discriminate; cbn; now rewrite Nat.eqb_refl.
  - destruct H as (la&be&_&_&->&_). now rewrite hold_attempts.
Qed.

(** ** Never parked *)
Lemma m_no_block : forall u t, MutexProofs.Inv u -> m_in (pcs u t) = Some OTry ->
  waiting u t = false /\ ~ In t (q u) /\
  ((forall b, step u (Run t b) <> None) \/ (spin u = true /\ exists v, v <> t /\ forall b, step u (Run v b) <> None)).
Proof.
  intros u t HI Hi. pose proof (MutexProofs.i_loc _ HI t) as Hl. unfold loc_ok in Hl.
  assert (Hw : waiting u t = false) by (destruct (pcs u t); try discriminate; try tauto; destruct b; tauto).
  split; [exact Hw|]. split.
  { intros Hq. apply (MutexProofs.i_q _ HI) in Hq. destruct Hq as [_ [E|[E|E]]]; rewrite E in Hi; discriminate. }
  destruct (pcs u t) eqn:E; try discriminate; cbn [step]; unfold step_run; rewrite E.
  - unfold tas. destruct (spin u) eqn:Es; [right|left; intros b; discriminate].
    split; [reflexivity|]. destruct (MutexProofs.i_spin _ HI) as (_&_&G). destruct (G Es) as [v Hv]. exists v.
    split; [intros ->; rewrite E in Hv; discriminate|]. intros b.
    destruct (pcs u v) eqn:Ev; try discriminate; unfold is_owner;
      repeat match goal with
      | |- context [if ?b then _ else _] => destruct b
      | |- context [match ?x with _ => _ end] => destruct x
      end; discriminate.
  - left. intros b. destruct (owner u); discriminate.
  - left. intros b0. discriminate.
Qed.

Section SpinBlock.
  Variables (D Op Res Aux Loc : Type).
  Variable entry : Op -> Loc.
  Variable seg : tid -> Op -> Loc -> bool -> D -> sout D Op Res Aux Loc.
  Lemma s_no_block : forall (s : fst_ D Op Res Aux Loc) a t, R s a ->
    (exists o l, fpcs s t = FWant o l) \/ (exists o l, fpcs s t = FIn o l) \/ (exists o gr r, fpcs s t = FUn o gr r) ->
    fmark s t = false /\
    ((forall b, fstep entry seg s (SRun t b) <> None) \/
     (fspin s = true /\ exists v, v <> t /\ forall b, fstep entry seg s (SRun v b) <> None)).
  Proof.
    intros s a t HR Hp. split.
    - destruct (fmark s t) eqn:E; [|reflexivity]. apply (r_mark1 HR) in E.
      destruct Hp as [(o&l&Ep)|[(o&l&Ep)|(o&gr&r&Ep)]]; rewrite Ep in E; discriminate.
    - assert (CS : forall v, incs (fpcs s v) = true -> forall b, fstep entry seg s (SRun v b) <> None).
      { intros v Hv b. cbn [fstep]. destruct (fpcs s v) as [|o l|o l|o l|o l|o l|o l|o l|o [|g gr] r]; try discriminate.
        destruct (seg v o l b (fdat s)); discriminate. }
      destruct Hp as [(o&l&Ep)|[(o&l&Ep)|(o&gr&r&Ep)]].
      + destruct (fspin s) eqn:Es.
        * right. split; [reflexivity|]. destruct (r_spin HR) as (_&_&G). destruct (G Es) as [v Hv]. exists v.
          split; [intros ->; rewrite Ep in Hv; discriminate|]. now apply CS.
        * left. intros b. cbn [fstep]. rewrite Ep, Es. discriminate.
      + left. apply CS. now rewrite Ep.
      + left. apply CS. now rewrite Ep.
  Qed.
End SpinBlock.

(** A coroutine inside a timed method over an object of SpinObj. *)
Section SpinStuck.
  Variables (D Op Res Aux Loc : Type).
  Variable entry : Op -> Loc.
  Variable seg : tid -> Op -> Loc -> bool -> D -> sout D Op Res Aux Loc.
  Variables (isT : Res -> bool) (tr : Op -> bool) (op_eqb : Op -> Op -> bool) (res_eqb : Res -> Res -> bool) (rt rf : Res).
  Variable okl : Op -> Loc -> Prop.
  Notation face' := (spin_face (fstep entry seg) isT tr).
  Notation I' := (okI D Op Res Aux Loc isT tr rt rf okl).
  Hypothesis LW : laws face' op_eqb res_eqb rt rf I'.

  Lemma s_stuck : forall s a t c, TI face' op_eqb res_eqb rt rf I' s -> R (mu s) a -> frame_of (tp s t) = Some c ->
    fmark (mu s) t = false /\
    ((exists lb, own_lbl face' t lb = true /\ tstep face' s lb <> None) \/
     (fspin (mu s) = true /\ exists v lb, v <> t /\ own_lbl face' v lb = true /\ tstep face' s lb <> None)).
  Proof.
    intros s a t c HT HR Hf. pose proof (ti_pos HT t) as Hp. pose proof (ti_I HT t) as Hk. unfold pos in Hp.
    assert (Out : f_in face' (mu s) t = None -> fmark (mu s) t = false).
    { cbn [spin_face f_in]. intros E. destruct (fmark (mu s) t) eqn:Em; [|reflexivity]. apply (r_mark1 HR) in Em.
      destruct (fpcs (mu s) t); cbn in *; discriminate. }
    assert (Go : own_lbl face' t (LGo t) = true) by (cbn; apply Nat.eqb_refl).
    destruct (tp s t) as [|c0|c0|c0|c0|c0 b] eqn:Et; cbn [frame_of] in Hf; try discriminate.
    - destruct Hp as [Hi _]. split; [now apply Out|]. left. exists (LGo t).
      split; [exact Go|]. cbn [tstep]. rewrite Et.
      pose proof (@l_call_en _ _ _ _ _ _ _ _ _ _ _ LW (mu s) t (r_o c0) Hi) as En.
      destruct (f_step face' (mu s) (f_call face' t (r_o c0))); [discriminate|congruence].
    - destruct Hp as (Hi&Ht&_). cbn [spin_face f_in f_try] in *.
      destruct (@s_no_block D Op Res Aux Loc entry seg (mu s) a t HR) as (A&C).
      { destruct (fpcs (mu s) t) as [|o l|o l|o l|o l|o l|o l|o l|o gr r]; cbn [s_in okp] in *; try discriminate;
          try (injection Hi as ->; destruct Hk; congruence); eauto 6. }
      split; [exact A|]. destruct C as [C|(E&v&Hv&C)].
      + left. exists (LU (SRun t false)). split; [exact Go|]. cbn [tstep spin_face f_run f_step].
        specialize (C false). destruct (fstep entry seg (mu s) (SRun t false)); [discriminate|congruence].
      + right. split; [exact E|]. exists v, (LU (SRun v false)). split; [exact Hv|].
        split; [cbn; apply Nat.eqb_refl|]. cbn [tstep spin_face f_run f_step].
        specialize (C false). destruct (fstep entry seg (mu s) (SRun v false)); [discriminate|congruence].
    - destruct Hp as [Hi _]. split; [now apply Out|]. left. exists (LGo t).
      split; [exact Go|]. cbn [tstep]. rewrite Et. cbn [spin_face f_mark]. rewrite (Out Hi). discriminate.
    - destruct Hp as [Hi _]. split; [now apply Out|]. left. exists (LGo t).
      split; [exact Go|]. cbn [tstep]. rewrite Et. discriminate.
    - assert (Hi : f_in face' (mu s) t = None) by (destruct b; apply Hp).
      split; [now apply Out|]. left. exists (LGo t). split; [exact Go|]. cbn [tstep]. rewrite Et. discriminate.
  Qed.
End SpinStuck.
