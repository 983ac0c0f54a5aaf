(** C104: the stack dump shows the whole live stack and reads only the stack's memory.  C105: the report names the program. *)
From Coq Require Import List ZArith Bool String Lia.
From Verif Require Import MemBase ReportModel.
Import ListNotations.
Local Open Scope Z_scope.

(** *** What a reader sees in a dump: words with their addresses.  A line begins with the address of its first word, the others follow
    at a distance of eight; a line holds at most four words. *)
Fixpoint parse (cur : option (Z * nat)) (l : list tok) : option (list (Z * Z)) :=
  match l with
  | [] => Some []
  | TAddr a :: r => match cur with None => parse (Some (a, 4%nat)) r | Some _ => None end
  | TWord w :: r => match cur with
                    | Some (a, S n) => match parse (Some (a + 8, n)) r with Some x => Some ((a, w) :: x) | None => None end
                    | _ => None
                    end
  | TEnd :: r => match cur with Some _ => parse None r | None => None end
  end.
(** Byte number i of a word. *)
Definition byte_of (w i : Z) : Z := w / 256 ^ i mod 256.

Fixpoint cells (m : memory) (l : list Z) : list (Z * Z) := match l with [] => [] | a :: r => (a, ld m a) :: cells m r end.
Definition cursor (addr i : Z) : option (Z * nat) := if i mod 32 =? 0 then None else Some (addr + i, Z.to_nat (4 - i mod 32 / 8)).
Lemma parse_loop : forall fuel m addr size i, 0 <= i -> i mod 8 = 0 -> parse (cursor addr i) (dump_loop fuel m addr size i) = Some (cells m (dump_reads fuel addr size i)).
Proof.
  induction fuel as [|fuel IH]; intros m addr size i P M; [reflexivity|]. cbn [dump_loop dump_reads]. destruct (i <? size); [|reflexivity]. cbn [cells].
  specialize (IH m addr size (i + 8)). assert (IH' : parse (cursor addr (i + 8)) (dump_loop fuel m addr size (i + 8)) = Some (cells m (dump_reads fuel addr size (i + 8)))).
  { apply IH; [lia|]. rewrite <- Zplus_mod_idemp_l, M. reflexivity. }
  clear IH. unfold cursor in *. change (4 * 8) with 32. change (3 * 8) with 24.
  pose proof (Z.div_mod i 32 ltac:(lia)) as D. pose proof (Z.mod_pos_bound i 32 ltac:(lia)) as B. pose proof (Z.div_mod i 8 ltac:(lia)) as E. rewrite M in E.
  assert (C : i mod 32 = 0 \/ i mod 32 = 8 \/ i mod 32 = 16 \/ i mod 32 = 24) by lia.
  assert (N : (i + 8) mod 32 = (i mod 32 + 8) mod 32) by (now rewrite Zplus_mod_idemp_l).
  replace (addr + (i + 8)) with (addr + i + 8) in IH' by lia. rewrite N in IH'.
  destruct C as [C|[C|[C|C]]]; rewrite C in *; cbn - [ld] in IH' |- *;
    change (Pos.to_nat 1) with 1%nat in *; change (Pos.to_nat 2) with 2%nat in *; change (Pos.to_nat 3) with 3%nat in *; cbn - [ld]; rewrite IH'; reflexivity.
Qed.
Lemma reads_in : forall fuel addr size i a, 0 <= i -> In a (dump_reads fuel addr size i) -> exists j, i <= j < size /\ a = addr + j /\ (j - i) mod 8 = 0.
Proof.
  induction fuel as [|fuel IH]; intros addr size i a P H; [contradiction|]. cbn [dump_reads] in H. destruct (Z.ltb_spec i size); [|contradiction]. destruct H as [<-|H].
  - exists i. rewrite Z.sub_diag. split; [lia|auto].
  - apply IH in H as (j&J1&J2&J3); [|lia]. exists j. split; [lia|]. split; auto. replace (j - i) with (j - (i + 8) + 1 * 8) by lia. now rewrite Z_mod_plus_full.
Qed.
Lemma reads_all : forall fuel addr size i x, (Z.to_nat (size - i) <= fuel)%nat -> addr + i <= x < addr + size -> exists a, In a (dump_reads fuel addr size i) /\ a <= x < a + 8.
Proof.
  induction fuel as [|fuel IH]; intros addr size i x F X; [lia|]. cbn [dump_reads]. destruct (Z.ltb_spec i size); [|lia].
  destruct (Z_lt_le_dec x (addr + i + 8)); [exists (addr + i); split; [now left|lia]|].
  destruct (IH addr size (i + 8) x) as (a&A&B); [lia|lia|]. exists a. split; [now right|auto].
Qed.
Lemma cells_in : forall m l a w, In (a, w) (cells m l) <-> In a l /\ w = ld m a.
Proof.
  induction l as [|b l IH]; intros a w; simpl; [tauto|]. rewrite IH. split.
  - intros [E|[H1 H2]]; [injection E as <- <-; auto|auto].
  - intros [[<-|H1] ->]; auto.
Qed.
Lemma dec_byte : forall l i, Forall (fun b => 0 <= b < 256) l -> (i < List.length l)%nat -> byte_of (dec l) (Z.of_nat i) = nth i l 0.
Proof.
  induction l as [|b l IH]; intros i F L; [simpl in L; lia|]. inversion F as [|? ? B F']; subst. unfold byte_of in *. cbn [dec]. destruct i as [|i].
  - cbn [nth Z.of_nat]. rewrite Z.pow_0_r, Z.div_1_r. replace (b + 256 * dec l) with (b + dec l * 256) by lia. rewrite Z_mod_plus_full. apply Z.mod_small. exact B.
  - cbn [nth]. rewrite <- IH by (auto; simpl in L; lia). rewrite Nat2Z.inj_succ, Z.pow_succ_r by lia. rewrite <- Z.div_div by lia. f_equal. f_equal.
    replace (b + 256 * dec l) with (b + dec l * 256) by lia. rewrite Z_div_plus_full by lia. rewrite Z.div_small; auto.
Qed.
Lemma ld_byte : forall m a i, bytemem m -> 0 <= i < 8 -> byte_of (ld m a) i = m (a + i).
Proof.
  intros m a i M I. unfold ld. rewrite <- (Z2Nat.id i) by lia. rewrite dec_byte; [|now apply bytes_byte|rewrite bytes_len; lia]. rewrite bytes_nth by lia. reflexivity.
Qed.

(** *** C104 *)
(** The dump is readable, shows every byte of the live stack (from the saved stack pointer up) with its value at its address, shows no
    address twice, reads nothing but what it shows, and each word it shows lies in the memory of the stack. *)
Theorem stack_dump_complete : forall m k sp, bytemem m -> base k mod page = 0 -> sp mod 8 = 0 -> base k <= sp < stack_top k ->
  exists d cs, stack_dump m k sp = Some d /\ parse None d = Some cs /\
    (forall x, sp <= x < stack_top k -> exists a w, In (a, w) cs /\ a <= x < a + 8 /\ byte_of w (x - a) = m x) /\
    NoDup (map fst cs) /\ map fst cs = stack_reads k sp /\
    (forall a w, In (a, w) cs -> sp <= a /\ w = ld m a /\ forall x, a <= x < a + 8 -> mapped k x).
Proof.
  intros m k sp M PB SA R. unfold stack_dump. destruct (Z.ltb_spec sp (stack_top k)); [|lia]. destruct (Z.leb_spec (base k) sp); [|lia]. cbn [andb].
  set (size := stack_top k - sp). set (L := dump_reads (Z.to_nat size) sp size 0).
  exists (dump_memory m sp size), (cells m L). split; [reflexivity|]. split.
  { unfold dump_memory. pose proof (parse_loop (Z.to_nat size) m sp size 0 ltac:(lia) eq_refl) as P. exact P. }
  split; [|split; [|split]].
  - intros x X. destruct (reads_all (Z.to_nat size) sp size 0 x) as (a&A&B); [lia|unfold size; lia|]. exists a, (ld m a). split; [now apply cells_in|]. split; auto.
    rewrite ld_byte by (auto; lia). f_equal. lia.
  - assert (G : forall fuel i, 0 <= i -> NoDup (map fst (cells m (dump_reads fuel sp size i)))).
    { induction fuel as [|fuel IH]; intros i P; cbn [dump_reads cells map]; [constructor|]. destruct (i <? size); [|constructor]. cbn [cells map fst]. constructor; [|apply IH; lia].
      intros H1. apply in_map_iff in H1 as ((a&w)&E&H1). simpl in E. subst a. apply cells_in in H1 as [H1 _]. apply reads_in in H1 as (j&J&E&_); [|lia]. lia. }
    apply G. lia.
  - unfold stack_reads. destruct (Z.ltb_spec sp (stack_top k)); [|lia]. destruct (Z.leb_spec (base k) sp); [|lia]. cbn [andb]. fold size. fold L.
    clear. induction L as [|a L IH]; simpl; congruence.
  - intros a w H1. apply cells_in in H1 as [H1 ->]. apply reads_in in H1 as (j&J&->&D); [|lia]. rewrite Z.sub_0_r in D. split; [lia|]. split; [reflexivity|].
    intros x X. unfold mapped. unfold size, stack_top in *. unfold page in *.
    pose proof (Z.div_mod (base k) 4096 ltac:(lia)) as E1. pose proof (Z.div_mod sp 8 ltac:(lia)) as E2. pose proof (Z.div_mod j 8 ltac:(lia)) as E3.
    pose proof (Z.div_mod (len k + 4096 - 1) 4096 ltac:(lia)) as E4. pose proof (Z.mod_pos_bound (len k + 4096 - 1) 4096 ltac:(lia)) as E5.
    rewrite PB in E1. rewrite SA in E2. rewrite D in E3. lia.
Qed.
Print Assumptions stack_dump_complete.
(** A stack pointer that does not point into the stack: nothing is dumped and nothing is read. *)
Theorem stack_dump_outside : forall m k sp, ~ (base k <= sp < stack_top k) -> stack_dump m k sp = None /\ stack_reads k sp = [].
Proof.
  intros m k sp N. unfold stack_dump, stack_reads. destruct (Z.ltb_spec sp (stack_top k)); destruct (Z.leb_spec (base k) sp); cbn [andb]; auto. exfalso. apply N. split; auto.
Qed.
Print Assumptions stack_dump_outside.
Example stack_dump_outside_ex : stack_dump (fun x => x mod 256) (mkStk 4096 48) 4088 = None /\ stack_dump (fun x => x mod 256) (mkStk 4096 48) 4144 = None.
Proof. split; reflexivity. Qed.
(** A stack of 48 bytes, the stack pointer 8 bytes above its lowest address: five words, four of them in the first line. *)
Example stack_dump_ex : exists d, stack_dump (fun x => x mod 256) (mkStk 4096 48) 4104 = Some d /\ parse None d = Some (cells (fun x => x mod 256) [4104; 4112; 4120; 4128; 4136]) /\
  nth 0 d TEnd = TAddr 4104 /\ nth 5 d (TAddr 0) = TEnd /\ nth 6 d TEnd = TAddr 4136.
Proof. eexists. split; [vm_compute; reflexivity|]. vm_compute. auto. Qed.
(** Without an aligned stack pointer the last word would reach beyond the memory of the stack. *)
Example stack_dump_unaligned : exists sp, base (mkStk 4096 4096) <= sp < stack_top (mkStk 4096 4096) /\ exists a, In a (stack_reads (mkStk 4096 4096) sp) /\ ~ mapped (mkStk 4096 4096) (a + 7).
Proof. exists 8191. split; [cbv; split; discriminate || reflexivity|]. exists 8191. split; [left; reflexivity|]. intros [_ H]. vm_compute in H. discriminate. Qed.

(** *** C105 *)
(** Whatever the program's file is called, the report does not name it. *)
Theorem report_name_refuted : forall name, name <> ""%string -> exe_path (Found name) <> Str name.
Proof. intros name N H. injection H as H. now symmetry in H. Qed.
Print Assumptions report_name_refuted.
(** And when the name cannot be found, the report prints memory that was never written. *)
Theorem report_unwritten_refuted : exists r, exe_path r = Unwritten.
Proof. now exists Failed. Qed.
Print Assumptions report_unwritten_refuted.
Example report_name_ex : exe_path (Found "/usr/bin/app") = Str "".
Proof. reflexivity. Qed.
