(** C60, C61, C69. *)
From Coq Require Import List Arith ZArith Bool Lia.
From Verif Require Import Base IoSpec IoModel.
Import ListNotations.

(** ** C61: read, write, accept, send, recv, recvfrom, sendmsg, recvmsg *)
Lemma toint_small : forall n, (Z.of_nat n <= maxrw)%Z -> toint n = Z.of_nat n.
Proof.
  intros n H. unfold maxrw in H. unfold toint. rewrite Z.mod_small by lia. destruct (Z.ltb_spec (Z.of_nat n) 2147483648); lia.
Qed.
Definition capped (a : ans) : Prop := match a with Ret n => (Z.of_nat n <= maxrw)%Z | Err _ => True end.
Definition temps (retry : errno -> bool) (temp : errno -> Prop) : Prop := forall e, retry e = true <-> temp e.
Lemma io_run_shape : forall retry temp, temps retry temp -> forall answers e0 s r, (forall a, In a answers -> capped a) ->
  run (iostep retry) (mkIo e0 None) answers = Some s -> ires s = Some r -> truthful temp answers r.
Proof.
  intros retry temp T. induction answers as [|a l IH]; intros e0 s r C R E; simpl in R; [injection R as <-; discriminate|].
  destruct a as [n|e]; simpl in R.
  - assert (X : toint n = Z.of_nat n) by (apply toint_small, (C (Ret n)); now left).
    assert (Y : round retry (toint n) e0 = Some (Z.of_nat n)). { rewrite X. unfold round. destruct (Z.eqb_spec (Z.of_nat n) (-1)); [lia|auto]. }
    rewrite Y in R. destruct l; simpl in R; [|discriminate]. injection R as <-. simpl in E. injection E as <-.
    exists [], (Ret n). simpl. split; auto. split; [tauto|auto].
  - unfold round in R. simpl in R. destruct (retry e) eqn:Q.
    + destruct (IH e s r) as (es&a&P1&P2&P3); auto. { intros b H. apply C. now right. }
      exists (e :: es), a. rewrite P1. simpl. split; auto. split; auto. intros x [<-|H]; auto. now apply T.
    + destruct l; simpl in R; [|discriminate]. injection R as <-. simpl in E. injection E as <-.
      exists [], (Err e). simpl. split; auto. split; [tauto|]. split; auto. intros H. apply T in H. congruence.
Qed.
Lemma io_run_end : forall retry temp, temps retry temp -> forall answers r, (forall a, In a answers -> capped a) -> truthful temp answers r ->
  forall e0, exists s, run (iostep retry) (mkIo e0 None) answers = Some s /\ ires s = Some r.
Proof.
  intros retry temp T answers r C (es&a&->&A&B). induction es as [|e es IH]; intros e0; simpl.
  - destruct a as [n|e].
    + assert (X : toint n = Z.of_nat n) by (apply toint_small, (C (Ret n)); now left). simpl. rewrite X. unfold round. destruct (Z.eqb_spec (Z.of_nat n) (-1)); [lia|]. simpl. eexists; split; eauto. simpl. congruence.
    + destruct B as [B ->]. simpl. unfold round. simpl. destruct (retry e) eqn:Q; [apply T in Q; tauto|]. eexists; split; eauto.
  - unfold round. simpl. assert (Q : retry e = true) by (apply T, A; now left). rewrite Q. apply IH; intros; [apply C; now right|apply A; now right].
Qed.
Lemma temps_io : temps retry_io blocks. Proof. intros []; unfold blocks; simpl; split; intros H; auto; try discriminate; destruct H; discriminate. Qed.
Lemma temps_net : temps retry_net blocks_or_intr. Proof. intros []; unfold blocks_or_intr, blocks; simpl; split; intros H; auto; try discriminate; destruct H as [[H|H]|H]; discriminate. Qed.
(** co_io::read and write: whatever the answers, and whatever errno was before, the call has returned r after exactly these system
    calls if and only if all but the last one would have blocked and r is the result of the last one. *)
Theorem io_truthful : forall answers e0 r, (forall a, In a answers -> capped a) ->
  (exists s, run (iostep retry_io) (mkIo e0 None) answers = Some s /\ ires s = Some r) <-> truthful blocks answers r.
Proof.
  intros answers e0 r C. split; [intros (s&R&E); eapply io_run_shape; eauto using temps_io|]. intros T. eapply io_run_end; eauto using temps_io.
Qed.
(** send, recv, recvfrom, sendmsg, recvmsg, and the loop of accept: the same, also retrying when interrupted. *)
Theorem net_truthful : forall answers e0 r, (forall a, In a answers -> capped a) ->
  (exists s, run (iostep retry_net) (mkIo e0 None) answers = Some s /\ ires s = Some r) <-> truthful blocks_or_intr answers r.
Proof.
  intros answers e0 r C. split; [intros (s&R&E); eapply io_run_shape; eauto using temps_net|]. intros T. eapply io_run_end; eauto using temps_net.
Qed.
Example io_example : exists s, run (iostep retry_net) (mkIo EAGAIN None) [Err EAGAIN; Err EINTR; Err EWOULDBLOCK; Ret 7] = Some s /\ ires s = Some 7%Z.
Proof. eexists. split; reflexivity. Qed.
(** accept hands out a co_net with the accepted descriptor, made non-blocking, unless fcntl fails. *)
Theorem accept_partial : forall fd getfl setfl, (0 <= fd)%Z -> getfl = Some true \/ (getfl = Some false /\ setfl = true) -> accepted_net fd getfl setfl = Some fd.
Proof. intros fd g st H [-> |[-> ->]]; unfold accepted_net; simpl; destruct (Z.eqb_spec fd (-1)); auto; lia. Qed.
(** The result of accept for every answer of the system: nothing exactly if accept(2) failed, and a co_net without
    descriptor exactly if making the descriptor non-blocking failed. *)
Theorem accept_exact_partial : forall ret getfl setfl,
  (accepted_net ret getfl setfl = None <-> ret = (-1)%Z) /\
  (ret <> (-1)%Z -> (accepted_net ret getfl setfl = Some (-1)%Z <-> getfl = None \/ (getfl = Some false /\ setfl = false)) /\
                   (accepted_net ret getfl setfl = Some ret <-> getfl = Some true \/ (getfl = Some false /\ setfl = true))).
Proof.
  intros ret g st. unfold accepted_net, init_fd. destruct (Z.eqb_spec ret (-1)) as [->|N]; [split; [tauto|intros H; now destruct H]|].
  split; [split; [discriminate|intros H; now destruct N]|]. intros _. destruct g as [[|]|]; [|destruct st|]; simpl; split; split; intros H;
    repeat match goal with H : _ \/ _ |- _ => destruct H | H : _ /\ _ |- _ => destruct H end; try discriminate; auto; congruence.
Qed.
Print Assumptions accept_exact_partial.
Example accept_exact_ex : accepted_net 5 (Some false) true = Some 5%Z /\ accepted_net 5 (Some false) false = Some (-1)%Z /\ accepted_net (-1) None false = None.
Proof. repeat split. Qed.
(** If it does fail, the caller gets a co_net without descriptor and no error. *)
Theorem accept_refuted : exists fd getfl setfl, (0 <= fd)%Z /\ accepted_net fd getfl setfl = Some (-1)%Z.
Proof. exists 5%Z, None, false. split; [lia|reflexivity]. Qed.

(** ** C61: connect *)
(** Connected at once: reported as an error. *)
Theorem connect_zero_refuted : exists fd e ls s, run (cstep_ok fd) (cinit e) ls = Some s /\ cpos s = KRet (-1) /\ fate s = Established.
Proof. exists 3, EAGAIN, [CConn None]. eexists. split; [reflexivity|auto]. Qed.
(** Refused while select waits: reported as success. *)
Theorem connect_failed_refuted : exists fd e ls s, run (cstep_ok fd) (cinit e) ls = Some s /\ cpos s = KRet 0 /\ fate s = Refused.
Proof. exists 3, EAGAIN, [CConn (Some EINPROGRESS); CSelNone; CSelReady false]. eexists. split; [reflexivity|auto]. Qed.
(** A signal during select: reported as an error while the connection is being established. *)
Theorem connect_intr_refuted : exists fd e ls s, run (cstep_ok fd) (cinit e) ls = Some s /\ cpos s = KRet (-1) /\ fate s = Undecided.
Proof. exists 3, EAGAIN, [CConn (Some EINPROGRESS); CSelErr EINTR]. eexists. split; [reflexivity|auto]. Qed.
(** A descriptor that does not fit into an fd_set. *)
Theorem connect_fdset_refuted : exists fd e a, cstep fd (cinit e) a = Some CBadSet.
Proof. exists (32 * 32), EAGAIN, (CConn (Some EINPROGRESS)). vm_compute. reflexivity. Qed.
(** What holds, for descriptors below 1024 and all answers: 0 is never returned for a connection that is still being
    established, nor -1 after select without an error from select; and connect itself reporting an error other than
    EINPROGRESS, or an established connection after waiting, is reported correctly. *)
Theorem connect_partial : forall fd e r ls s, fd < 1024 -> run (cstep_ok fd) (cinit e) (CConn (Some r) :: ls) = Some s -> (forall x, ~ In (CSelErr x) ls) ->
  forall v, cpos s = KRet v -> (r <> EINPROGRESS /\ v = (-1)%Z /\ fate s <> Established) \/ (r = EINPROGRESS /\ v = 0%Z /\ fate s <> Undecided /\ (~ In (CSelReady false) ls -> fate s = Established)).
Proof.
  intros fd e r ls s F R N v P. simpl in R. unfold cstep_ok in R at 1. simpl in R. assert (Q : (fd <? 1024) = true) by (apply Nat.ltb_lt; exact F).
  rewrite Q in R. destruct r.
  all: try (destruct ls as [|[] ls]; simpl in R; [|discriminate..]; injection R as <-; simpl in P; injection P as <-; left; simpl; split; [discriminate|split; [auto|discriminate]]).
  right. split; auto. revert R N P. clear. revert s. induction ls as [|a ls IH]; intros s R N P; simpl in R; [injection R as <-; discriminate|].
  destruct a; unfold cstep_ok in R at 1; simpl in R; try discriminate.
  - exfalso. eapply N. now left.
  - destruct (IH s R) as (A&B&C); auto. { intros x H. apply (N x). now right. } split; auto. split; auto. intros D. apply C. intros H. apply D. now right.
  - destruct ok; destruct ls as [|[] ls]; simpl in R; try discriminate; injection R as <-; simpl in P; injection P as <-; simpl; split; auto; split; try discriminate; auto.
    intros H. exfalso. apply H. now left.
Qed.
Example connect_example : exists s, run (cstep_ok 3) (cinit EAGAIN) [CConn (Some EINPROGRESS); CSelNone; CSelNone; CSelReady true] = Some s /\ cpos s = KRet 0 /\ fate s = Established.
Proof. eexists. split; [reflexivity|auto]. Qed.

(** ** C60 *)
Record WV (buf : list nat) (s : nst) : Prop := {
  w_buf : nbuf s = buf; w_pos : npos s <= length buf; w_acc : nacc s = firstn (npos s) buf;
  w_end : nres s = Some false -> npos s = length buf }.
Lemma firstn_add : forall A (l : list A) a b, firstn (a + b) l = firstn a l ++ firstn b (skipn a l).
Proof. induction l as [|x l IH]; intros a b; destruct a; simpl; auto; [now rewrite !firstn_nil|]. now rewrite IH. Qed.
Lemma round_ret : forall n e, (Z.of_nat n <= maxrw)%Z -> round retry_io (toint n) e = Some (Z.of_nat n).
Proof. intros n e H. rewrite toint_small by auto. unfold round. destruct (Z.eqb_spec (Z.of_nat n) (-1)); [lia|auto]. Qed.
Lemma wv_step : forall buf s a s', WV buf s -> wstep s a = Some s' -> WV buf s'.
Proof.
  intros buf s a s' [A B C D] E. unfold wstep in E. destruct (nres s) eqn:N; [discriminate|]. rewrite A in E. destruct a as [n|e].
  - destruct (_ && _) eqn:K; [|discriminate]. apply andb_true_iff in K as [K1 K2]. apply Nat.leb_le in K1. apply Z.leb_le in K2. simpl in E.
    rewrite round_ret in E by auto. destruct (Z.ltb_spec (Z.of_nat n) 0); [lia|]. rewrite Nat2Z.id in E. injection E as <-. unfold more. simpl.
    destruct (Nat.ltb_spec (npos s + n) (length buf)); constructor; simpl; try rewrite C, firstn_add; auto; try lia; discriminate.
  - simpl in E. unfold round in E. simpl in E. destruct (retry_io e); [injection E as <-|destruct (-1 <? 0)%Z eqn:X; [|discriminate]; injection E as <-]; constructor; simpl; auto; discriminate.
Qed.
Lemma wv_run : forall buf e ls s, run wstep (winit buf e) ls = Some s -> WV buf s.
Proof.
  intros buf e ls s R. refine (run_inv wstep (WV buf) (winit buf e) _ _ ls R).
  - unfold winit, more. simpl. destruct (Nat.ltb_spec 0 (length buf)); constructor; simpl; auto; try lia; discriminate.
  - intros. eapply wv_step; eauto.
Qed.
(** write_n, for every buffer and all answers: at any time the system has a prefix of the buffer, in order, each byte once; when the
    call returns without error it has all of it. *)
Theorem write_n_exact : forall buf e ls s, run wstep (winit buf e) ls = Some s ->
  (exists rest, buf = nacc s ++ rest) /\ forall err, nres s = Some err -> wrote_n buf (nacc s) err.
Proof.
  intros buf e ls s R. destruct (wv_run _ _ _ _ R) as [A B C D]. assert (X : buf = nacc s ++ skipn (npos s) buf) by (rewrite C; symmetry; apply firstn_skipn).
  split; [eauto|]. intros err E. exists (skipn (npos s) buf). split; auto. intros ->. rewrite (D E). apply skipn_all.
Qed.
(** Each system call offers the system all that is left: any answer possible for that many bytes is acted upon. *)
Theorem write_n_offers : forall buf e ls s a, run wstep (winit buf e) ls = Some s -> nres s = None ->
  (forall n, a = Ret n -> length (nacc s) + n <= length buf /\ (Z.of_nat n <= maxrw)%Z) ->
  exists s', wstep s a = Some s' /\ forall n, a = Ret n -> exists b, nacc s' = nacc s ++ b /\ length b = n.
Proof.
  intros buf e ls s a R E H. destruct (wv_run _ _ _ _ R) as [A B C D]. unfold wstep. rewrite E. destruct a as [n|x].
  - destruct (H n eq_refl) as [H1 H2]. rewrite C, firstn_length in H1.
    assert (L : n <= length (nbuf s) - npos s) by (rewrite A; lia). apply Nat.leb_le in L as L'. apply Z.leb_le in H2 as H2'. rewrite L', H2'.
    cbn [andb]. cbn [nerr]. unfold sysret. cbn [fst]. rewrite round_ret by lia. destruct (Z.ltb_spec (Z.of_nat n) 0); [lia|]. eexists. split; [reflexivity|].
    intros m [= <-]. exists (firstn n (skipn (npos s) (nbuf s))). split; [unfold more; match goal with |- context [if ?b then _ else _] => destruct b end; reflexivity|].
    rewrite firstn_length, skipn_length. lia.
  - cbn. destruct (retry_io x); [eexists; split; [reflexivity|discriminate]|]. cbn. eexists. split; [reflexivity|discriminate].
Qed.
Print Assumptions write_n_offers.
Example write_n_offers_ex : exists s s', run wstep (winit [7; 8; 9] EAGAIN) [Ret 1; Err EAGAIN] = Some s /\ nres s = None /\
  wstep s (Ret 2) = Some s' /\ nacc s' = [7; 8; 9].
Proof. do 2 eexists. split; [reflexivity|]. split; [reflexivity|]. split; reflexivity. Qed.
(** It returns an error only if the system has answered with one that is not temporary; and it returns after at most as
    many transfers as there are bytes, if each transfers something. *)
Definition transfers (ls : list ans) : nat := length (filter (fun a => match a with Ret _ => true | _ => false end) ls).
Lemma app_inv_last' : forall A (l l' : list A) x y, l ++ [x] = l' ++ [y] -> l = l' /\ x = y.
Proof. intros. apply app_inj_tail. auto. Qed.
Theorem write_n_error : forall buf e ls s, run wstep (winit buf e) ls = Some s -> nres s = Some true -> exists e0, In (Err e0) ls /\ ~ blocks e0.
Proof.
  intros buf e ls s R. assert (X : nres s = Some true -> exists e0, In (Err e0) ls /\ ~ blocks e0); [|auto].
  revert s R. induction ls as [|a ls IH] using rev_ind; intros s R E.
  - injection R as <-. unfold winit, more in E. simpl in E. destruct (0 <? length buf); discriminate.
  - rewrite run_app in R. destruct (run wstep (winit buf e) ls) as [s1|] eqn:R1; [|discriminate]. simpl in R. destruct (wstep s1 a) as [s2|] eqn:S; [|discriminate]. injection R as ->.
    unfold wstep in S. destruct (nres s1) eqn:N; [discriminate|]. destruct a as [n|x].
    + exfalso. destruct (_ && _) eqn:K; [|discriminate]. apply andb_true_iff in K as [K1 K2]. apply Z.leb_le in K2. simpl in S.
      rewrite round_ret in S by auto. destruct (Z.ltb_spec (Z.of_nat n) 0); [lia|]. injection S as <-. unfold more in E. simpl in E. destruct (_ <? _) in E; discriminate.
    + exists x. split; [apply in_or_app; right; now left|]. intros H. apply temps_io in H. simpl in S. unfold round in S. simpl in S. rewrite H in S. injection S as <-. discriminate.
Qed.
Theorem write_n_ends : forall buf e ls s, run wstep (winit buf e) ls = Some s -> ~ In (Ret 0) ls -> length buf <= transfers ls -> nres s <> None.
Proof.
  intros buf e ls s R NZ L. assert (X : nres s = None -> transfers ls <= npos s /\ npos s < length buf); [|intros H; apply X in H; lia].
  clear L. revert s R NZ. induction ls as [|a ls IH] using rev_ind; intros s R NZ E.
  - injection R as <-. unfold winit, more in *. simpl in *. destruct (Nat.ltb_spec 0 (length buf)); simpl in *; [unfold transfers; simpl; lia|discriminate].
  - pose proof (wv_run _ _ _ _ R) as W. rewrite run_app in R. destruct (run wstep (winit buf e) ls) as [s1|] eqn:R1; [|discriminate]. simpl in R. destruct (wstep s1 a) as [s2|] eqn:S; [|discriminate]. injection R as ->.
    assert (N : nres s1 = None). { unfold wstep in S. destruct (nres s1); [discriminate|auto]. }
    destruct (IH s1 eq_refl) as [I1 I2]; auto. { intros H. apply NZ. apply in_or_app. now left. }
    pose proof (wv_run _ _ _ _ R1) as W1. unfold transfers. rewrite filter_app, app_length. fold (transfers ls).
    unfold wstep in S. rewrite N, (w_buf _ _ W1) in S. destruct a as [n|x].
    + destruct (_ && _) eqn:K; [|discriminate]. apply andb_true_iff in K as [K1 K2]. apply Z.leb_le in K2. simpl in S.
      rewrite round_ret in S by auto. destruct (Z.ltb_spec (Z.of_nat n) 0); [lia|]. rewrite Nat2Z.id in S. injection S as <-. unfold more in *. simpl in *.
      destruct (Nat.ltb_spec (npos s1 + n) (length buf)); simpl in *; [|discriminate]. assert (n <> 0). { intros ->. apply NZ. apply in_or_app. right. now left. } lia.
    + simpl in S. unfold round in S. simpl in S. simpl. destruct (retry_io x); [injection S as <-; simpl; lia|]. simpl in S. injection S as <-. discriminate.
Qed.
Example write_n_example : exists s, run wstep (winit [5;6;7] EINTR) [Err EAGAIN; Ret 2; Err EAGAIN; Ret 1] = Some s /\ nres s = Some false /\ nacc s = [5;6;7].
Proof. eexists. split; [vm_compute; reflexivity|auto]. Qed.

Record RV (size : nat) (src : list nat) (s : nst) : Prop := {
  r_len : length (nbuf s) = size; r_pos : npos s <= size; r_src : src = firstn (npos s) (nbuf s) ++ nsrc s;
  r_end : nres s = Some false -> npos s = size }.
Lemma overwrite_len : forall buf p b, p + length b <= length buf -> length (overwrite buf p b) = length buf.
Proof. intros. unfold overwrite. rewrite !app_length, firstn_length, skipn_length. lia. Qed.
Lemma overwrite_pre : forall buf p b, p + length b <= length buf -> firstn (p + length b) (overwrite buf p b) = firstn p buf ++ b.
Proof.
  intros buf p b H. unfold overwrite. rewrite app_assoc. rewrite firstn_app. rewrite firstn_all2 by (rewrite app_length, firstn_length; lia).
  replace (p + length b - length (firstn p buf ++ b)) with 0 by (rewrite app_length, firstn_length; lia). simpl. apply app_nil_r.
Qed.
Lemma rv_step : forall size src s a s', RV size src s -> rstep s a = Some s' -> RV size src s'.
Proof.
  intros size src s a s' [A B C D] E. unfold rstep in E. destruct (nres s) eqn:N; [discriminate|]. rewrite A in E. destruct a as [n|e].
  - destruct (ok_read _ _ _) eqn:K; [|discriminate]. unfold ok_read in K. rewrite !andb_true_iff in K. destruct K as (((K1&K2)&K3)&_).
    apply Nat.leb_le in K1, K2. apply Z.leb_le in K3. simpl in E. rewrite round_ret in E by auto. destruct (Z.ltb_spec (Z.of_nat n) 0); [lia|].
    rewrite Nat2Z.id in E. injection E as <-.
    assert (L : length (firstn n (nsrc s)) = n) by (rewrite firstn_length; lia).
    assert (P : firstn (npos s + n) (overwrite (nbuf s) (npos s) (firstn n (nsrc s))) = firstn (npos s) (nbuf s) ++ firstn n (nsrc s)).
    { rewrite <- L at 1. apply overwrite_pre. lia. }
    unfold more. simpl. rewrite overwrite_len by lia. destruct (Nat.ltb_spec (npos s + n) (length (nbuf s))); constructor; simpl;
      rewrite ?overwrite_len by lia; try rewrite P; rewrite <- ?app_assoc, ?firstn_skipn; auto; try lia; discriminate.
  - simpl in E. unfold round in E. simpl in E. destruct (retry_io e); [injection E as <-|destruct (-1 <? 0)%Z eqn:X; [|discriminate]; injection E as <-]; constructor; simpl; auto; discriminate.
Qed.
Lemma rv_run : forall b src e ls s, run rstep (rinit b src e) ls = Some s -> RV (length b) src s.
Proof.
  intros b src e ls s R. refine (run_inv rstep (RV (length b) src) (rinit b src e) _ _ ls R).
  - unfold rinit, more. simpl. destruct (Nat.ltb_spec 0 (length b)); constructor; simpl; auto; try lia; discriminate.
  - intros. eapply rv_step; eauto.
Qed.
(** read_n, for every buffer, stream and all answers: when it returns without error the buffer holds exactly the next bytes of the
    stream, in order, and nothing more has been taken from the stream; before that, or with an error, the part of the buffer
    filled so far does. *)
Theorem read_n_exact_partial : forall b src e ls s, run rstep (rinit b src e) ls = Some s ->
  (exists got, got = firstn (npos s) (nbuf s) /\ src = got ++ nsrc s) /\ (nres s = Some false -> filled_n (length b) src (nbuf s) (nsrc s)).
Proof.
  intros b src e ls s R. destruct (rv_run _ _ _ _ _ R) as [A B C D]. split; [eauto|]. intros E. split; auto. rewrite (D E), <- A, firstn_all in C. auto.
Qed.
(** At the end of the stream it does not return, however often the system is asked. *)
Theorem read_n_eof_refuted : exists b src e, forall n, exists s, run rstep (rinit b src e) (repeat (Ret 0) n) = Some s /\ nres s = None.
Proof.
  exists [0], [], EAGAIN. intros n. exists (rinit [0] [] EAGAIN). split; [|reflexivity].
  induction n as [|n IH]; [reflexivity|]. simpl repeat. simpl run. change (rstep (rinit [0] [] EAGAIN) (Ret 0)) with (Some (rinit [0] [] EAGAIN)). exact IH.
Qed.
(** Whatever the system answers without error, if the stream is too short it does not return. *)
Theorem read_n_eof_always_refuted : forall b src e ls s, length src < length b -> run rstep (rinit b src e) ls = Some s -> nres s <> Some false.
Proof.
  intros b src e ls s L R E. destruct (rv_run _ _ _ _ _ R) as [A B C D]. specialize (D E). apply (f_equal (@length nat)) in C. rewrite app_length, firstn_length in C. lia.
Qed.
(** It does return when the stream is long enough: after at most as many transfers as the buffer has bytes. *)
Theorem read_n_ends_partial : forall b src e ls s, length b <= length src -> run rstep (rinit b src e) ls = Some s -> length b <= transfers ls -> nres s <> None.
Proof.
  intros b src e ls s L R T. assert (X : nres s = None -> transfers ls <= npos s /\ npos s < length b); [|intros H; apply X in H; lia].
  clear T. revert s R. induction ls as [|a ls IH] using rev_ind; intros s R E.
  - injection R as <-. unfold rinit, more in *. simpl in *. destruct (Nat.ltb_spec 0 (length b)); simpl in *; [unfold transfers; simpl; lia|discriminate].
  - rewrite run_app in R. destruct (run rstep (rinit b src e) ls) as [s1|] eqn:R1; [|discriminate]. simpl in R. destruct (rstep s1 a) as [s2|] eqn:S; [|discriminate]. injection R as ->.
    assert (N : nres s1 = None). { unfold rstep in S. destruct (nres s1); [discriminate|auto]. }
    destruct (IH s1 eq_refl) as [I1 I2]; auto. pose proof (rv_run _ _ _ _ _ R1) as [A B C D].
    unfold transfers. rewrite filter_app, app_length. fold (transfers ls). unfold rstep in S. rewrite N, A in S. destruct a as [n|x].
    + destruct (ok_read _ _ _) eqn:K; [|discriminate]. unfold ok_read in K. rewrite !andb_true_iff in K. destruct K as (((K1&K2)&K3)&K4).
      apply Nat.leb_le in K1, K2. apply Z.leb_le in K3. simpl in S. rewrite round_ret in S by auto. destruct (Z.ltb_spec (Z.of_nat n) 0); [lia|].
      rewrite Nat2Z.id in S. injection S as <-. assert (LL : length (firstn n (nsrc s1)) = n) by (rewrite firstn_length; lia).
      unfold more in *. simpl in *. rewrite overwrite_len in * by lia. rewrite A in *.
      destruct (Nat.ltb_spec (npos s1 + n) (length b)); simpl in *; [|discriminate].
      apply (f_equal (@length nat)) in C. rewrite app_length, firstn_length in C. destruct n; simpl in K4; [|lia]. destruct (nsrc s1); simpl in *; [lia|].
      destruct (Nat.eqb_spec (length b - npos s1) 0); [lia|discriminate].
    + simpl in S. unfold round in S. simpl in S. simpl. destruct (retry_io x); [injection S as <-; simpl; lia|]. simpl in S. injection S as <-. discriminate.
Qed.
Example read_n_example : exists s, run rstep (rinit [0;0;0] [5;6;7;8] EINTR) [Err EAGAIN; Ret 1; Err EAGAIN; Ret 2] = Some s /\ nres s = Some false /\ nbuf s = [5;6;7] /\ nsrc s = [8].
Proof. eexists. split; [vm_compute; reflexivity|auto]. Qed.
(** co_client::read and write report an error exactly if the call failed, and otherwise the count. *)
Theorem client_truthful : forall r, (-1 <= r <= maxrw)%Z -> (snd (client_result r) = true <-> r = (-1)%Z) /\ (snd (client_result r) = false -> fst (client_result r) = r).
Proof.
  intros r H. unfold client_result, maxrw in *. simpl. destruct (Z.ltb_spec r 0); split; try split; intros; try lia; try discriminate. now rewrite Z.mod_small by lia.
Qed.

(** ** C69 *)
(** fcntl and ioctl hand on the address of their argument list instead of the argument: for instance fcntl(F_SETFL,
    O_NONBLOCK) (bit 11) can make the descriptor blocking. *)
Theorem fcntl_refuted : exists arg ap, Z.testbit arg 11 = true /\ Z.testbit (forwarded arg ap) 11 = false.
Proof. exists 2048%Z, 140737488347136%Z. split; reflexivity. Qed.

Print Assumptions io_truthful.
Print Assumptions net_truthful.
Print Assumptions accept_partial.
Print Assumptions accept_refuted.
Print Assumptions connect_zero_refuted.
Print Assumptions connect_failed_refuted.
Print Assumptions connect_intr_refuted.
Print Assumptions connect_fdset_refuted.
Print Assumptions connect_partial.
Print Assumptions write_n_exact.
Print Assumptions write_n_error.
Print Assumptions write_n_ends.
Print Assumptions read_n_exact_partial.
Print Assumptions read_n_eof_refuted.
Print Assumptions read_n_eof_always_refuted.
Print Assumptions read_n_ends_partial.
Print Assumptions client_truthful.
Print Assumptions fcntl_refuted.
