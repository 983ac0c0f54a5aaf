(** C120: get_process_phy_mem returns the number of the VmRSS line. *)
From Coq Require Import List NArith Ascii String Bool Lia.
From Verif Require Import MemModel.
Import ListNotations.
Local Open Scope char_scope.

(** The line of the kernel: the name, white space, the number in decimal digits, white space, the unit.  A digit and its value; the value of digits. *)
Definition is_digit (c : ascii) : Prop := (48 <= N_of_ascii c <= 57)%N.
Definition value (l : list ascii) : N := fold_left (fun n c => 10 * n + (N_of_ascii c - 48))%N l 0%N.
Definition is_blank (c : ascii) : Prop := c = " " \/ c = "009".
Definition rss_line (x : list ascii) (n : N) : Prop :=
  exists ws ds b rest, x = list_ascii_of_string "VmRSS:" ++ ws ++ ds ++ b :: rest /\ Forall is_blank ws /\ ds <> [] /\ Forall is_digit ds /\ is_blank b /\ value ds = n.
Definition named (x : list ascii) : Prop := exists v, x = list_ascii_of_string "VmRSS:" ++ v.

Lemma blank_spec : forall c, blank c = true <-> is_blank c.
Proof. intros c. unfold blank, is_blank. rewrite orb_true_iff, !Ascii.eqb_eq. tauto. Qed.
Lemma digit_not_blank : forall c, is_digit c -> blank c = false.
Proof. intros c H. destruct (blank c) eqn:B; auto. apply blank_spec in B. destruct B as [-> | ->]; destruct H as [H H']; vm_compute in H; congruence. Qed.
Lemma cut_app : forall p a b r, Forall (fun c => p c = false) a -> p b = true -> cut p (a ++ b :: r) = Some (a, b :: r).
Proof. intros p a b r F B. induction F as [|c a C F IH]; simpl; [now rewrite B|]. rewrite C, IH. reflexivity. Qed.
Lemma digits_all : forall ds n, Forall is_digit ds -> digits n true ds = Some (fold_left (fun n c => 10 * n + (N_of_ascii c - 48))%N ds n).
Proof.
  induction ds as [|c ds IH]; intros n F; cbn [digits fold_left]; [reflexivity|]. inversion F as [|? ? D F']; subst. unfold digit. destruct D as [D1 D2].
  apply N.leb_le in D1, D2. cbv zeta. rewrite D1, D2. cbn [andb]. now apply IH.
Qed.
Lemma stoul_ok : forall max ds, ds <> [] -> Forall is_digit ds -> stoul max ds = if (value ds <=? max)%N then MVal (value ds) else MRange.
Proof.
  intros max ds N0 F. destruct ds as [|c ds]; [congruence|]. inversion F as [|? ? D F']; subst. unfold stoul, value. cbn [digits fold_left]. unfold digit. destruct D as [D1 D2].
  apply N.leb_le in D1, D2. cbv zeta. rewrite D1, D2. cbn [andb]. rewrite digits_all by auto. reflexivity.
Qed.
Lemma after_spec : forall p x v, after p x = Some v <-> x = p ++ v.
Proof.
  induction p as [|a p IH]; intros x v; simpl; [split; [intros E; now injection E as ->|now intros ->]|]. destruct x as [|b x]; [split; discriminate|].
  destruct (Ascii.eqb_spec a b) as [->|N0]; [rewrite IH; split; [now intros ->|intros E; now injection E as ->]|split; [discriminate|intros E; injection E as ? ?; congruence]].
Qed.
Lemma not_named : forall x, ~ named x -> after tag x = None.
Proof. intros x H. destruct (after tag x) as [v|] eqn:E; auto. exfalso. apply H. exists v. now apply after_spec in E. Qed.

(** The number of the first line with the name, if the lines before it have other names and it fits. *)
Theorem mem_reads : forall max pre x post n, (forall y, In y pre -> ~ named y) -> rss_line x n ->
  phy_mem max (Some (pre ++ x :: post)) = if (n <=? max)%N then MVal n else MRange.
Proof.
  intros max pre x post n P (ws&ds&b&rest&->&W&D0&D&B&<-). unfold phy_mem. induction pre as [|y pre IH].
  - cbn [app mem_loop]. assert (E : after tag (list_ascii_of_string "VmRSS:" ++ ws ++ ds ++ b :: rest) = Some (ws ++ ds ++ b :: rest)) by (apply after_spec; reflexivity).
    rewrite E. destruct ds as [|c ds]; [congruence|]. inversion D as [|? ? C D']; subst. cbn [app].
    rewrite cut_app; [|eapply Forall_impl; [|exact W]; intros d Hd; apply blank_spec in Hd; now rewrite Hd|now rewrite digit_not_blank].
    change (c :: ds ++ b :: rest) with ((c :: ds) ++ b :: rest).
    rewrite cut_app; [now apply stoul_ok|eapply Forall_impl; [|exact D]; apply digit_not_blank|now apply blank_spec].
  - cbn [app mem_loop]. rewrite (not_named y) by (apply P; now left). apply IH. intros z Hz. apply P. now right.
Qed.
Print Assumptions mem_reads.
(** Without such a line, or without the file, it is 0. *)
Theorem mem_none : forall max f, (forall l, f = Some l -> forall y, In y l -> ~ named y) -> phy_mem max f = MVal 0.
Proof.
  intros max [l|] H; [|reflexivity]. specialize (H l eq_refl). unfold phy_mem. induction l as [|y l IH]; [reflexivity|]. cbn [mem_loop].
  rewrite (not_named y) by (apply H; now left). apply IH. intros z Hz. apply H. now right.
Qed.
Print Assumptions mem_none.
(** A number other than 0, or a failure, always comes from a line with the name. *)
Theorem mem_from_line : forall max f, phy_mem max f <> MVal 0 -> exists l y, f = Some l /\ In y l /\ named y.
Proof.
  intros max [l|] H; [|exfalso; now apply H]. exists l. unfold phy_mem in H. induction l as [|y l IH]; [exfalso; now apply H|]. cbn [mem_loop] in H.
  destruct (after tag y) as [v|] eqn:E; [exists y; split; auto; split; [now left|exists v; now apply after_spec in E]|].
  destruct (IH H) as (z&_&Hz&N0). exists z. split; auto. split; auto. now right.
Qed.
Print Assumptions mem_from_line.
(** A line of another form: the word after the name and white space begins with digits (possibly none) and goes on with something else.  The digits are what
    is returned; without any, stoul throws. *)
Definition odd_line (x ds w : list ascii) : Prop :=
  exists ws o b rest, x = list_ascii_of_string "VmRSS:" ++ ws ++ (ds ++ o :: w) ++ b :: rest /\ Forall is_blank ws /\ Forall is_digit ds /\ ~ is_digit o /\
    Forall (fun c => ~ is_blank c) (o :: w) /\ is_blank b.
Lemma digits_stop : forall ds n sn o w, Forall is_digit ds -> ~ is_digit o ->
  digits n sn (ds ++ o :: w) = match ds with [] => if sn then Some n else None | _ => Some (fold_left (fun n c => 10 * n + (N_of_ascii c - 48))%N ds n) end.
Proof.
  induction ds as [|c ds IH]; intros n sn o w F O; cbn [app digits].
  - unfold digit. cbv zeta. destruct ((48 <=? N_of_ascii o)%N) eqn:A; [|reflexivity]. destruct ((N_of_ascii o <=? 57)%N) eqn:B; [|reflexivity].
    exfalso. apply O. split; now apply N.leb_le.
  - inversion F as [|? ? D F']; subst. unfold digit. destruct D as [D1 D2]. apply N.leb_le in D1, D2. cbv zeta. rewrite D1, D2. cbn [andb].
    rewrite IH by auto. now destruct ds.
Qed.
Theorem mem_odd : forall max pre x post ds w, (forall y, In y pre -> ~ named y) -> odd_line x ds w ->
  phy_mem max (Some (pre ++ x :: post)) = match ds with [] => MInvalid | _ => if (value ds <=? max)%N then MVal (value ds) else MRange end.
Proof.
  intros max pre x post ds w P (ws&o&b&rest&->&W&D&O&NB&B). unfold phy_mem. induction pre as [|y pre IH].
  - cbn [app mem_loop]. assert (E : after tag (list_ascii_of_string "VmRSS:" ++ ws ++ (ds ++ o :: w) ++ b :: rest) = Some (ws ++ (ds ++ o :: w) ++ b :: rest)) by (apply after_spec; reflexivity).
    rewrite E. assert (NW : Forall (fun c => blank c = false) (ds ++ o :: w)).
    { apply Forall_app. split; [eapply Forall_impl; [|exact D]; apply digit_not_blank|]. eapply Forall_impl; [|exact NB]. intros c N0. destruct (blank c) eqn:Q; auto. exfalso. now apply N0, blank_spec. }
    assert (S0 : stoul max (ds ++ o :: w) = match ds with [] => MInvalid | _ => if (value ds <=? max)%N then MVal (value ds) else MRange end).
    { unfold stoul. rewrite digits_stop by auto. now destruct ds. }
    assert (NE : ds ++ o :: w <> []) by now destruct ds. revert NW S0 NE. generalize (ds ++ o :: w) as wd. intros [|c wd] NW S0 NE; [congruence|]. inversion NW as [|? ? C NW']; subst. cbn [app].
    rewrite cut_app; [|eapply Forall_impl; [|exact W]; intros d Hd; apply blank_spec in Hd; now rewrite Hd|now rewrite C].
    change (c :: wd ++ b :: rest) with ((c :: wd) ++ b :: rest). rewrite cut_app; [exact S0|exact NW|now apply blank_spec].
  - cbn [app mem_loop]. rewrite (not_named y) by (apply P; now left). apply IH. intros z Hz. apply P. now right.
Qed.
Print Assumptions mem_odd.
Example mem_odd_example : phy_mem 18446744073709551615 (Some (map list_ascii_of_string ["VmRSS:	 12kB "; "VmRSS:	 3 kB"]%string)) = MVal 12 /\
  phy_mem 18446744073709551615 (Some (map list_ascii_of_string ["VmRSS: unknown kB"; "VmRSS:	 3 kB"]%string)) = MInvalid /\
  odd_line (list_ascii_of_string "VmRSS: unknown kB") [] (list_ascii_of_string "nknown").
Proof.
  split; [vm_compute; reflexivity|]. split; [vm_compute; reflexivity|]. exists [" "], "u", " ", ["k"; "B"]. split; [reflexivity|]. unfold is_blank.
  split; [auto|]. split; [constructor|]. split; [intros [_ A]; vm_compute in A; apply A; reflexivity|]. split; [|auto].
  repeat (apply Forall_cons; [intros [A|A]; discriminate A|]). apply Forall_nil.
Qed.
(** A line that ends before the word does, or has nothing after the name, is passed over; with the rest of the file it is as if it were not there. *)
Theorem mem_short : forall max x post ws w, x = list_ascii_of_string "VmRSS:" ++ ws ++ w -> Forall is_blank ws -> Forall (fun c => ~ is_blank c) w ->
  phy_mem max (Some (x :: post)) = phy_mem max (Some post).
Proof.
  intros max x post ws w -> W NW. unfold phy_mem. cbn [mem_loop]. assert (E : after tag (list_ascii_of_string "VmRSS:" ++ ws ++ w) = Some (ws ++ w)) by (apply after_spec; reflexivity). rewrite E.
  assert (C : forall p l, Forall (fun c => p c = false) l -> cut p l = None) by (intros p l F; induction F as [|c l A F IH]; simpl; [reflexivity|now rewrite A, IH]).
  assert (NB : Forall (fun c => blank c = false) w) by (eapply Forall_impl; [|exact NW]; intros c N0; destruct (blank c) eqn:Q; auto; exfalso; now apply N0, blank_spec).
  assert (WB : Forall (fun c => negb (blank c) = false) ws) by (eapply Forall_impl; [|exact W]; intros d Hd; apply blank_spec in Hd; now rewrite Hd).
  destruct w as [|c w]; [rewrite app_nil_r, C by exact WB; reflexivity|]. inversion NB as [|? ? NC NB']; subst. rewrite cut_app; [|exact WB|now rewrite NC]. rewrite C by exact NB. reflexivity.
Qed.
Print Assumptions mem_short.
Definition status : list (list ascii) := map list_ascii_of_string ["Name: a.out"; "VmHWM:	    2000 kB"; "VmRSS:	    1234 kB"; "RssAnon:	      90 kB"]%string.
Example mem_example : (forall y, In y (firstn 2 status) -> ~ named y) /\ rss_line (nth 2 status []) 1234 /\ phy_mem 18446744073709551615 (Some status) = MVal 1234.
Proof.
  split; [|split].
  - intros y [<-|[<-|[]]] (v&E); vm_compute in E; discriminate E.
  - exists ["009"; " "; " "; " "; " "], ["1"; "2"; "3"; "4"], " ", ["k"; "B"]. split; [reflexivity|]. unfold is_blank, is_digit.
    split; [repeat (apply Forall_cons; [now auto|]); apply Forall_nil|]. split; [discriminate|]. split; [|split; [auto|reflexivity]]. repeat constructor; vm_compute; discriminate.
  - vm_compute. reflexivity.
Qed.
