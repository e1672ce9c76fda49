(** Lemmas for C45 to C48: groups, locality of the tasks, and what a phase computes. *)
Require Import Reals List Arith Bool Lia Lra FunctionalExtensionality.
Require Import Verif.RVec Verif.ProxModel Verif.InterModel Verif.InterProofs Verif.ParModel.
Import ListNotations.
Local Open Scope nat_scope.

(** ** Groups *)
Fixpoint starts (k : nat) (sizes : list nat) : list nat :=
  match sizes with [] => [] | s :: t => k :: starts (k + s) t end.
Definition total (sizes : list nat) : nat := fold_right Nat.add 0 sizes.

Lemma fold_min_seq : forall s k x, x <= k -> fold_left Nat.min (seq k s) x = x.
Proof.
  intros s. induction s as [|s IH]; intros k x H; [reflexivity | ]. cbn [seq fold_left].
  rewrite Nat.min_l by exact H. apply IH. lia.
Qed.

Lemma mins : forall sizes k, Forall (fun s => 0 < s) sizes -> mapM np_min (split_at k sizes) = Some (starts k sizes).
Proof.
  intros sizes. induction sizes as [|s t IH]; intros k H; [reflexivity | ].
  inversion H as [|x y Hs Ht]; subst. destruct s as [|s]; [lia | ].
  cbn [split_at mapM starts seq np_min]. rewrite (IH _ Ht), fold_min_seq by lia. reflexivity.
Qed.

Lemma mins_none : forall sizes k, In 0 sizes -> mapM np_min (split_at k sizes) = None.
Proof.
  intros sizes. induction sizes as [|s t IH]; intros k H; [contradiction | ].
  cbn [split_at mapM]. destruct s as [|s]; [reflexivity | ]. destruct H as [H|H]; [discriminate | ].
  rewrite (IH _ H). destruct (np_min (seq k (S s))); reflexivity.
Qed.

Lemma starts_length : forall sizes k, length (starts k sizes) = length sizes.
Proof. intros sizes. induction sizes as [|s t IH]; intros k; simpl; [reflexivity | rewrite IH; reflexivity]. Qed.

Lemma starts_nth : forall sizes k i d, i <= length sizes ->
  nth i (starts k sizes ++ [k + total sizes]) d = k + total (firstn i sizes).
Proof.
  intros sizes. induction sizes as [|s t IH]; intros k i d H.
  - simpl in *. assert (i = 0) by lia. subst. simpl. lia.
  - destruct i as [|i]; [simpl; lia | ]. simpl in H. cbn [starts app nth firstn]. change (total (s :: t)) with (s + total t).
    rewrite Nat.add_assoc. rewrite IH by lia. change (total (s :: firstn i t)) with (s + total (firstn i t)). lia.
Qed.

Lemma total_firstn_S : forall sizes i, i < length sizes -> total (firstn (S i) sizes) = total (firstn i sizes) + nth i sizes 0.
Proof.
  intros sizes. induction sizes as [|s t IH]; intros i H; [simpl in H; lia | ].
  destruct i as [|i]; [simpl; unfold total; simpl; lia | ].
  simpl in H. specialize (IH i ltac:(lia)).
  change (firstn (S (S i)) (s :: t)) with (s :: firstn (S i) t).
  change (firstn (S i) (s :: t)) with (s :: firstn i t). cbn [nth].
  change (total (s :: firstn (S i) t)) with (s + total (firstn (S i) t)).
  change (total (s :: firstn i t)) with (s + total (firstn i t)). lia.
Qed.

Lemma total_app : forall a b, total (a ++ b) = total a + total b.
Proof. intros a b. induction a as [|x a IH]; [reflexivity | ]. unfold total in *. simpl. rewrite IH. lia. Qed.
Lemma total_repeat : forall s k, total (repeat s k) = k * s.
Proof. intros s k. induction k as [|k IH]; [reflexivity | ]. unfold total in *. simpl. rewrite IH. reflexivity. Qed.

Definition sizes_of (M n : nat) : list nat := repeat (M / n + 1) (M mod n) ++ repeat (M / n) (n - M mod n).

Lemma sizes_total : forall M n, 0 < n -> total (sizes_of M n) = M.
Proof.
  intros M n H. unfold sizes_of. rewrite total_app, !total_repeat.
  pose proof (Nat.div_mod M n ltac:(lia)). pose proof (Nat.mod_upper_bound M n ltac:(lia)). nia.
Qed.
Lemma sizes_length : forall M n, 0 < n -> length (sizes_of M n) = n.
Proof.
  intros M n H. unfold sizes_of. rewrite app_length, !repeat_length. pose proof (Nat.mod_upper_bound M n ltac:(lia)). lia.
Qed.
Lemma sizes_in : forall M n s, In s (sizes_of M n) -> s = M / n \/ s = M / n + 1.
Proof.
  intros M n s H. unfold sizes_of in H. apply in_app_or in H. destruct H as [H|H]; apply repeat_spec in H; tauto.
Qed.

Lemma mp_grp_some : forall M n, 0 < n -> n <= M -> mp_grp M n = Some (starts 0 (sizes_of M n) ++ [M]).
Proof.
  intros M n H0 H. unfold mp_grp, array_split. fold (sizes_of M n). destruct n; [lia | ].
  rewrite mins; [reflexivity | ]. apply Forall_forall. intros s Hs. apply sizes_in in Hs.
  assert (1 <= M / S n) by (apply Nat.div_le_lower_bound; lia). lia.
Qed.
Lemma mp_grp_none : forall M n, M < n -> mp_grp M n = None.
Proof.
  intros M n H. unfold mp_grp, array_split. fold (sizes_of M n). destruct n; [lia | ].
  rewrite mins_none; [reflexivity | ]. unfold sizes_of. rewrite (Nat.div_small M (S n) H), (Nat.mod_small M (S n) H).
  apply in_or_app. right. destruct (S n - M) as [|k] eqn:E; [lia | ]. left. reflexivity.
Qed.

Lemma grp_props : forall M n l, mp_grp M n = Some l ->
  0 < n /\ n <= M /\ length l = S n /\ nth 0 l 0 = 0 /\ nth n l 0 = M /\
  (forall i, i < n -> nth (S i) l 0 = nth i l 0 + nth i (sizes_of M n) 0) /\
  (forall i, i < n -> nth i (sizes_of M n) 0 = M / n \/ nth i (sizes_of M n) 0 = M / n + 1).
Proof.
  intros M n l H. assert (H0 : 0 < n) by (destruct n; [discriminate | lia]).
  assert (Hn : n <= M) by (destruct (le_lt_dec n M) as [h|h]; [exact h | rewrite mp_grp_none in H by exact h; discriminate]).
  rewrite mp_grp_some in H by assumption. injection H as <-.
  pose proof (sizes_length M n H0) as Hl. pose proof (sizes_total M n H0) as Ht.
  assert (N : forall i, i <= n -> nth i (starts 0 (sizes_of M n) ++ [M]) 0 = total (firstn i (sizes_of M n))).
  { intros i Hi. rewrite <- Ht at 2. apply (starts_nth (sizes_of M n) 0 i 0). lia. }
  split; [exact H0 | ]. split; [exact Hn | ]. split; [rewrite app_length, starts_length; simpl; lia | ].
  split; [rewrite N by lia; reflexivity | ].
  split; [rewrite N by lia; rewrite firstn_all2 by lia; exact Ht | ].
  split.
  - intros i Hi. rewrite !N by lia. apply total_firstn_S. lia.
  - intros i Hi. apply sizes_in. apply nth_In. lia.
Qed.

(** ** Monotone group boundaries *)
Definition groups (n M : nat) (g : nat -> nat) : Prop := g 0 = 0 /\ g n = M /\ forall i, i < n -> g i < g (S i).

Lemma groups_mono : forall n M g, groups n M g -> forall i j, i <= j -> j <= n -> g i <= g j.
Proof.
  intros n M g (_ & _ & H) i j Hij. induction Hij as [|j Hij IH]; intros Hj; [lia | ].
  specialize (H j ltac:(lia)). specialize (IH ltac:(lia)). lia.
Qed.

Lemma groups_exists : forall n M g, groups n M g -> forall f, f < M -> exists i, i < n /\ g i <= f /\ f < g (S i).
Proof.
  intros n M g (H0 & HM & H) f Hf.
  assert (E : forall k, k <= n -> f < g k -> exists i, i < k /\ g i <= f /\ f < g (S i)).
  { intros k. induction k as [|k IH]; intros Hk Hfk; [lia | ].
    destruct (le_lt_dec (g k) f) as [h|h]; [exists k; lia | ]. destruct (IH ltac:(lia) h) as (i & Hi & A). exists i. split; [lia | exact A]. }
  destruct (E n (le_n n) ltac:(lia)) as (i & Hi & A). exists i. tauto.
Qed.

Lemma groups_unique : forall n M g, groups n M g -> forall f i j, i < n -> j < n ->
  g i <= f < g (S i) -> g j <= f < g (S j) -> i = j.
Proof.
  intros n M g Hg f i j Hi Hj A B'. destruct (lt_eq_lt_dec i j) as [[h|h]|h]; [ | exact h | ].
  - pose proof (groups_mono n M g Hg (S i) j ltac:(lia) ltac:(lia)). lia.
  - pose proof (groups_mono n M g Hg (S j) i ltac:(lia) ltac:(lia)). lia.
Qed.

(** ** Locations *)
Lemma farr_eqb_spec : forall a b, reflect (a = b) (farr_eqb a b).
Proof. intros a b. destruct a, b; simpl; constructor; congruence. Qed.
Lemma garr_eqb_spec : forall a b, reflect (a = b) (garr_eqb a b).
Proof. intros a b. destruct a, b; simpl; constructor; congruence. Qed.
Lemma rarr_eqb_spec : forall a b, reflect (a = b) (rarr_eqb a b).
Proof. intros a b. destruct a, b; simpl; constructor; congruence. Qed.

Lemma loc_eqb_spec : forall x y, reflect (x = y) (loc_eqb x y).
Proof.
  intros x. induction x as [a f p|a i p|p|a i|i l IH]; intros y; destruct y as [a' f' p'|a' i' p'|p'|a' i'|i' l']; simpl;
    try (constructor; congruence).
  - destruct (farr_eqb_spec a a'), (Nat.eqb_spec f f'), (Nat.eqb_spec p p'); simpl; constructor; congruence.
  - destruct (garr_eqb_spec a a'), (Nat.eqb_spec i i'), (Nat.eqb_spec p p'); simpl; constructor; congruence.
  - destruct (Nat.eqb_spec p p'); constructor; congruence.
  - destruct (rarr_eqb_spec a a'), (Nat.eqb_spec i i'); simpl; constructor; congruence.
  - destruct (Nat.eqb_spec i i'), (IH l'); simpl; constructor; congruence.
Qed.
Lemma loc_eqb_refl : forall x, loc_eqb x x = true.
Proof. intros x. destruct (loc_eqb_spec x x); congruence. Qed.
Lemma loc_eqb_ne : forall x y, x <> y -> loc_eqb x y = false.
Proof. intros x y H. destruct (loc_eqb_spec x y); congruence. Qed.

Definition is_tmp (l : loc) : bool := match l with Tmp _ _ => true | _ => false end.
(** Equality of the arrays, whatever the private memory. *)
Definition meq (m m' : pmem) : Prop := forall l, is_tmp l = false -> m l = m' l.

(** Assignment as a whole. *)
Definition inb (l : loc) (dst : list loc) : bool := existsb (loc_eqb l) dst.
Definition stm (D : loc -> bool) (e : pmem -> loc -> R) (m : pmem) : pmem := fun l => if D l then e m l else m l.

Definition tmpfree (e : pmem -> loc -> R) : Prop := forall m m' l, meq m m' -> e m l = e m' l.

Lemma inb_in : forall l dst, inb l dst = true <-> In l dst.
Proof.
  intros l dst. unfold inb. rewrite existsb_exists. split.
  - intros (x & Hx & E). destruct (loc_eqb_spec l x); [subst; exact Hx | discriminate].
  - intros H. exists l. split; [exact H | apply loc_eqb_refl].
Qed.

Lemma exec_compute : forall i e dst m, tmpfree e -> Forall (fun l => is_tmp l = false) dst ->
  let m' := exec (map (fun l m => set (Tmp i l) (e m l) m) dst) m in
  meq m' m /\ (forall l, In l dst -> m' (Tmp i l) = e m l) .
Proof.
  intros i e dst m He Hd. cbv zeta. revert m. induction dst as [|l0 dst IH]; intros m.
  - split; [intros l Hl; reflexivity | intros l []].
  - inversion Hd as [|x y Hl0 Hd']; subst. specialize (IH Hd').
    change (exec (map (fun l m => set (Tmp i l) (e m l) m) (l0 :: dst)) m)
      with (exec (map (fun l m => set (Tmp i l) (e m l) m) dst) (set (Tmp i l0) (e m l0) m)).
    set (m1 := set (Tmp i l0) (e m l0) m). destruct (IH m1) as [I1 I2].
    assert (E1 : meq m1 m).
    { intros l Hl. unfold m1, set. rewrite loc_eqb_ne; [reflexivity | ]. intros ->. discriminate. }
    split.
    + intros l Hl. rewrite (I1 l Hl). apply E1. exact Hl.
    + intros l Hl. destruct (in_dec (fun x y => match loc_eqb_spec x y with ReflectT _ h => left h | ReflectF _ h => right h end) l dst) as [Hin|Hout].
      * rewrite (I2 l Hin). apply He. exact E1.
      * destruct Hl as [<-|Hl]; [ | contradiction].
        assert (K : forall ds mm, ~ In l0 ds -> exec (map (fun l m => set (Tmp i l) (e m l) m) ds) mm (Tmp i l0) = mm (Tmp i l0)).
        { clear. intros ds. induction ds as [|d ds IH]; intros mm H; [reflexivity | ].
          change (exec (map (fun l m => set (Tmp i l) (e m l) m) (d :: ds)) mm)
            with (exec (map (fun l m => set (Tmp i l) (e m l) m) ds) (set (Tmp i d) (e mm d) mm)).
          rewrite IH by (intros h; apply H; right; exact h). unfold set. rewrite loc_eqb_ne; [reflexivity | ].
          intros h. injection h as h. apply H. left. congruence. }
        rewrite (K dst m1 Hout). unfold m1, set. rewrite loc_eqb_refl. reflexivity.
Qed.

Lemma exec_store : forall i dst m, Forall (fun l => is_tmp l = false) dst ->
  forall l, is_tmp l = false -> exec (map (fun l m => set l (m (Tmp i l)) m) dst) m l = if inb l dst then m (Tmp i l) else m l.
Proof.
  intros i dst. induction dst as [|l0 dst IH]; intros m Hd l Hl; [reflexivity | ].
  inversion Hd as [|x y Hl0 Hd']; subst.
  change (exec (map (fun l m => set l (m (Tmp i l)) m) (l0 :: dst)) m)
    with (exec (map (fun l m => set l (m (Tmp i l)) m) dst) (set l0 (m (Tmp i l0)) m)).
  rewrite (IH _ Hd' l Hl). cbn [inb existsb]. fold (inb l dst).
  assert (T : forall v, set l0 v m (Tmp i l) = m (Tmp i l)).
  { intros v. unfold set. rewrite loc_eqb_ne; [reflexivity | ]. intros <-. discriminate. }
  rewrite T. unfold set. destruct (loc_eqb_spec l l0) as [->|Hne]; cbn [orb]; destruct (inb _ dst); reflexivity.
Qed.

Lemma exec_assign : forall i e dst m, tmpfree e -> Forall (fun l => is_tmp l = false) dst ->
  meq (exec (assign i dst e) m) (stm (fun l => inb l dst) e m).
Proof.
  intros i e dst m He Hd l Hl. unfold assign.
  match goal with |- exec (?a ++ ?b) ?m ?l = _ => transitivity (exec b (exec a m) l); [exact (f_equal (fun h => h l) (exec_app a b m)) | ] end.
  destruct (exec_compute i e dst m He Hd) as [I1 I2]. cbv zeta in I1, I2.
  rewrite (exec_store i dst _ Hd l Hl). unfold stm. destruct (inb l dst) eqn:E; [ | apply I1; exact Hl].
  apply I2. apply inb_in. exact E.
Qed.

Lemma stm_meq : forall D e m m', tmpfree e -> meq m m' -> meq (stm D e m) (stm D e m').
Proof. intros D e m m' He H l Hl. unfold stm. rewrite (He m m' l H), (H l Hl). reflexivity. Qed.

Lemma stm_ext : forall D D' e m, (forall l, is_tmp l = false -> D l = D' l) -> meq (stm D e m) (stm D' e m).
Proof. intros D D' e m H l Hl. unfold stm. rewrite (H l Hl). reflexivity. Qed.

Lemma meq_refl : forall m, meq m m. Proof. intros m l _. reflexivity. Qed.
Lemma meq_trans : forall a b d, meq a b -> meq b d -> meq a d.
Proof. intros a b d H1 H2 l Hl. rewrite (H1 l Hl). apply H2. exact Hl. Qed.
Lemma meq_sym : forall a b, meq a b -> meq b a.
Proof. intros a b H l Hl. symmetry. apply H. exact Hl. Qed.

(** ** Locality *)
Definition owner (c : params) (l : loc) : option nat :=
  let own i := if i <? ngrp c then Some i else None in
  match l with
  | F _ f _ => find (fun i => ing c i f) (seq 0 (ngrp c))
  | G _ i _ => own i
  | B _ => None
  | Res _ i => own i
  | Tmp i _ => own i
  end.

Lemma owner_lt : forall c l i, owner c l = Some i -> i < ngrp c.
Proof.
  intros c l i H. unfold owner in H.
  destruct l as [a f p|a j p|p|a j|j l]; try (destruct (Nat.ltb_spec j (ngrp c)); [injection H as <-; assumption | discriminate]); [ | discriminate].
  apply find_some in H. destruct H as [H _]. apply in_seq in H. lia.
Qed.

Lemma ing_iff : forall c i f, ing c i f = true <-> grp c i <= f < grp c (S i).
Proof. intros c i f. unfold ing. rewrite andb_true_iff, Nat.leb_le, Nat.ltb_lt. tauto. Qed.

Lemma find_grp : forall c, groups (ngrp c) (nfilt c) (grp c) -> forall i f, i < ngrp c -> ing c i f = true ->
  find (fun i => ing c i f) (seq 0 (ngrp c)) = Some i.
Proof.
  intros c Hg i f Hi H. destruct (find (fun i => ing c i f) (seq 0 (ngrp c))) as [j|] eqn:E.
  - apply find_some in E. destruct E as [E1 E2]. apply in_seq in E1. f_equal.
    apply ing_iff in E2. apply ing_iff in H. apply (groups_unique _ _ _ Hg f); lia.
  - exfalso. pose proof (find_none _ _ E i ltac:(apply in_seq; lia)) as N. cbv beta in N. congruence.
Qed.

Lemma in_fsl : forall c a i l, In l (fsl c a i) <-> exists f p, l = F a f p /\ ing c i f = true /\ p < npix c.
Proof.
  intros c a i l. unfold fsl. rewrite in_flat_map. split.
  - intros (f & Hf & Hl). apply in_map_iff in Hl. destruct Hl as (p & <- & Hp). apply in_seq in Hf. apply in_seq in Hp.
    exists f, p. rewrite ing_iff. repeat split; lia.
  - intros (f & p & -> & Hf & Hp). apply ing_iff in Hf. exists f. split; [apply in_seq; lia | ].
    apply in_map_iff. exists p. split; [reflexivity | apply in_seq; lia].
Qed.
Lemma in_gsl : forall c a i l, In l (gsl c a i) <-> exists p, l = G a i p /\ p < npix c.
Proof.
  intros c a i l. unfold gsl. rewrite in_map_iff. split.
  - intros (p & <- & Hp). apply in_seq in Hp. exists p. split; [reflexivity | lia].
  - intros (p & -> & Hp). exists p. split; [reflexivity | apply in_seq; lia].
Qed.

Lemma assign_local : forall c i dst e, i < ngrp c ->
  (forall l, In l dst -> owner c l = Some i) ->
  (forall m m' l, In l dst -> agree (owner c) i m m' -> e m l = e m' l) ->
  Forall (local (owner c) i) (assign i dst e).
Proof.
  intros c i dst e Hi Hd He.
  assert (OT : forall l, owner c (Tmp i l) = Some i).
  { intros l. unfold owner. destruct (Nat.ltb_spec i (ngrp c)); [reflexivity | lia]. }
  unfold assign. apply Forall_app. split; apply Forall_forall; intros a Ha; apply in_map_iff in Ha; destruct Ha as (l & <- & Hl).
  - split.
    + intros m l' H. unfold set. rewrite loc_eqb_ne; [reflexivity | ]. intros ->. apply H. apply OT.
    + intros m m' Hm l' Hl'. unfold set. destruct (loc_eqb l' (Tmp i l)); [apply He; assumption | apply Hm; exact Hl'].
  - split.
    + intros m l' H. unfold set. rewrite loc_eqb_ne; [reflexivity | ]. intros ->. apply H. apply Hd. exact Hl.
    + intros m m' Hm l' Hl'. unfold set. destruct (loc_eqb l' l); [ | apply Hm; exact Hl'].
      apply Hm. left. apply OT.
Qed.

Section Local.
Variable c : params.
Hypothesis Hg : groups (ngrp c) (nfilt c) (grp c).
Notation own := (owner c).

Lemma own_F : forall i a f p, i < ngrp c -> ing c i f = true -> own (F a f p) = Some i.
Proof. intros i a f p Hi Hf. simpl. apply find_grp; assumption. Qed.
Lemma own_G : forall i a p, i < ngrp c -> own (G a i p) = Some i.
Proof. intros i a p Hi. simpl. destruct (Nat.ltb_spec i (ngrp c)); [reflexivity | lia]. Qed.
Lemma own_Res : forall i a, i < ngrp c -> own (Res a i) = Some i.
Proof. intros i a Hi. simpl. destruct (Nat.ltb_spec i (ngrp c)); [reflexivity | lia]. Qed.

Lemma fassign_local : forall i a h, i < ngrp c ->
  (forall (m m' : pmem) f p, ing c i f = true -> p < npix c -> agree own i m m' -> h m f p = h m' f p) ->
  Forall (local own i) (assign i (fsl c a i) (eF h)).
Proof.
  intros i a h Hi Hh. apply assign_local; [exact Hi | |].
  - intros l Hl. apply in_fsl in Hl. destruct Hl as (f & p & -> & Hf & Hp). apply own_F; assumption.
  - intros m m' l Hl Hm. apply in_fsl in Hl. destruct Hl as (f & p & -> & Hf & Hp). apply Hh; assumption.
Qed.
Lemma gassign_local : forall i a h, i < ngrp c ->
  (forall (m m' : pmem) p, p < npix c -> agree own i m m' -> h m p = h m' p) ->
  Forall (local own i) (assign i (gsl c a i) (eG h)).
Proof.
  intros i a h Hi Hh. apply assign_local; [exact Hi | |].
  - intros l Hl. apply in_gsl in Hl. destruct Hl as (p & -> & Hp). apply own_G; assumption.
  - intros m m' l Hl Hm. apply in_gsl in Hl. destruct Hl as (p & -> & Hp). apply Hh; assumption.
Qed.

Lemma agree_F : forall i (m m' : pmem) a f p, agree own i m m' -> i < ngrp c -> ing c i f = true -> m (F a f p) = m' (F a f p).
Proof. intros i m m' a f p H Hi Hf. apply H. left. apply own_F; assumption. Qed.
Lemma agree_G : forall i (m m' : pmem) a p, agree own i m m' -> i < ngrp c -> m (G a i p) = m' (G a i p).
Proof. intros i m m' a p H Hi. apply H. left. apply own_G; assumption. Qed.
Lemma agree_B : forall i (m m' : pmem) p, agree own i m m' -> m (B p) = m' (B p).
Proof. intros i m m' p H. apply H. right. reflexivity. Qed.

Lemma yu0_agree : forall i (m m' : pmem), agree own i m m' -> i < ngrp c -> yu0 c i m = yu0 c i m'.
Proof.
  intros i m m' H Hi. unfold yu0. apply functional_extensionality. intros p. destruct (p <? npix c); [ | reflexivity].
  rewrite !(agree_G i m m') by assumption. reflexivity.
Qed.
Lemma yu1_agree : forall i (m m' : pmem), agree own i m m' -> i < ngrp c -> yu1 c i m = yu1 c i m'.
Proof.
  intros i m m' H Hi. unfold yu1. apply functional_extensionality. intros f. apply functional_extensionality. intros p.
  destruct (ing c i f) eqn:Ef; [ | reflexivity]. simpl. destruct (p <? npix c); [ | reflexivity].
  rewrite !(agree_F i m m') by assumption. reflexivity.
Qed.

Ltac loc_tac := intros; cbv beta;
  repeat match goal with
  | H : agree _ ?i ?m ?m' |- context [?m (F ?a ?f ?p)] => is_var m; rewrite (agree_F i m m' a f p H) by assumption
  | H : agree _ ?i ?m ?m' |- context [?m (G ?a ?i ?p)] => is_var m; rewrite (agree_G i m m' a p H) by assumption
  | H : agree _ ?i ?m ?m' |- context [?m (B ?p)] => is_var m; rewrite (agree_B i m m' p H)
  | H : agree _ ?i ?m ?m' |- context [yu0 c ?i ?m] => is_var m; rewrite (yu0_agree i m m' H) by assumption
  | H : agree _ ?i ?m ?m' |- context [yu1 c ?i ?m] => is_var m; rewrite (yu1_agree i m m' H) by assumption
  end; reflexivity.

Lemma xstep_local : forall i, i < ngrp c -> Forall (local own i) (par_xstep c i).
Proof.
  intros i Hi. unfold par_xstep. apply Forall_app. split; [apply fassign_local | apply gassign_local]; try exact Hi; loc_tac.
Qed.
Lemma relax_local : forall i, i < ngrp c -> Forall (local own i) (par_relax_AX c i).
Proof.
  intros i Hi. unfold par_relax_AX. apply Forall_app. split; [apply fassign_local; try exact Hi; loc_tac | ].
  apply Forall_app. split; [apply gassign_local; try exact Hi; loc_tac | ].
  destruct (Req_EM_T (rlx c) 1); [constructor | ].
  apply Forall_app. split; [apply fassign_local | apply gassign_local]; try exact Hi; loc_tac.
Qed.
Lemma initial_local : forall i, i < ngrp c -> Forall (local own i) (par_initial_stepgrp c i).
Proof. intros i Hi. apply Forall_app. split; [apply xstep_local | apply relax_local]; exact Hi. Qed.
Lemma final_local : forall i, i < ngrp c -> Forall (local own i) (par_final_stepgrp c i).
Proof.
  intros i Hi. unfold par_final_stepgrp, par_y0bstep, par_y1step, par_u0step, par_u1step.
  apply Forall_app. split; [apply gassign_local; try exact Hi; loc_tac | ].
  apply Forall_app. split; [apply fassign_local; try exact Hi; loc_tac | ].
  apply Forall_app. split; [apply gassign_local | apply fassign_local]; try exact Hi; loc_tac.
Qed.
Lemma step_local : forall i, i < ngrp c -> Forall (local own i) (par_stepgrp c i).
Proof. intros i Hi. apply Forall_app. split; [apply final_local | apply initial_local]; exact Hi. Qed.

Lemma sumf_ext : forall i h h', (forall f p, ing c i f = true -> p < npix c -> h f p = h' f p) -> sumf c i h = sumf c i h'.
Proof.
  intros i h h' H. unfold sumf. apply sumn_ext. intros j Hj. apply sumn_ext. intros p Hp. apply H; [ | exact Hp].
  apply ing_iff. lia.
Qed.

Lemma resid_agree : forall i a (m m' : pmem), i < ngrp c -> agree own i m m' -> resid c i a m = resid c i a m'.
Proof.
  intros i a m m' Hi H.
  assert (EG : forall a p, m (G a i p) = m' (G a i p)) by (intros; apply (agree_G i); assumption).
  assert (EF : forall a f p, ing c i f = true -> m (F a f p) = m' (F a f p)) by (intros; apply (agree_F i); assumption).
  destruct a; unfold resid;
    repeat match goal with
    | |- (?x + ?y = ?x' + ?y')%R => apply f_equal2
    | |- (?x * ?y = ?x * ?y')%R => apply f_equal
    | |- sumn _ _ = sumn _ _ => apply sumn_ext; intros; rewrite ?EG; reflexivity
    | |- sumf _ _ _ = sumf _ _ _ => apply sumf_ext; intros; rewrite ?EF by assumption; reflexivity
    end.
Qed.

Lemma residuals_local : forall i, i < ngrp c -> Forall (local own i) (par_compute_residuals c i).
Proof.
  intros i Hi. unfold par_compute_residuals. apply Forall_forall. intros x Hx. apply in_flat_map in Hx.
  destruct Hx as (a & _ & Hx). revert x Hx. apply Forall_forall. apply assign_local; [exact Hi | |].
  - intros l [<-|[]]. apply own_Res. exact Hi.
  - intros m m' l _ Hm. apply resid_agree; assumption.
Qed.

Definition phase (f : nat -> list pact) : Prop :=
  f = par_initial_stepgrp c \/ f = par_final_stepgrp c \/ f = par_stepgrp c \/ f = par_compute_residuals c.

Lemma tasks_local : forall f, phase f -> forall i, Forall (local own i) (tasks c f i).
Proof.
  intros f Hf i. unfold tasks. destruct (Nat.ltb_spec i (ngrp c)) as [Hi|Hi]; [ | constructor].
  destruct Hf as [->|[->|[->| ->]]]; [apply initial_local | apply final_local | apply step_local | apply residuals_local]; exact Hi.
Qed.

Lemma distribute_sched : forall f s m, phase f -> (forall i, i < ngrp c -> length (f i) <= count_occ Nat.eq_dec s i) ->
  distribute c (Some s) f m = distribute c None f m.
Proof.
  intros f s m Hf Hs. unfold distribute. apply (interleaving own); [apply tasks_local; exact Hf | apply owner_lt | ].
  apply enough_turns. intros i Hi. unfold tasks. destruct (Nat.ltb_spec i (ngrp c)); [apply Hs; exact Hi | lia].
Qed.

Lemma distribute_at : forall f m l, phase f ->
  distribute c None f m l = match own l with Some i => exec (f i) m l | None => m l end.
Proof.
  intros f m l Hf. unfold distribute. rewrite (sequential_result own) by (try apply tasks_local; try apply owner_lt; exact Hf).
  destruct (own l) as [i|] eqn:E; [ | reflexivity]. apply owner_lt in E. unfold tasks.
  destruct (Nat.ltb_spec i (ngrp c)); [reflexivity | lia].
Qed.
End Local.
