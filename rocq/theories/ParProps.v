(** C45, C46, C47, C48: the parallel convolutional sparse coding solver. *)
Require Import Reals List Arith Bool Lia Lra FunctionalExtensionality.
Require Import Verif.RVec Verif.ProxModel Verif.ProxProofs Verif.InterModel Verif.InterProofs Verif.ParModel Verif.ParProofs Verif.ParSpec Verif.ParSem Verif.ParIter Verif.ParOpt
  Verif.ParLoop Verif.ParObjModel Verif.ParRefute.
Import ListNotations.
Local Open Scope nat_scope.

(** ** C45 *)
(** The groups: ValueError exactly if there are more groups than filters (or none); otherwise [n] non-empty consecutive groups
    of nearly equal size, every filter in exactly one. *)
Theorem C45_groups : forall M n,
  (mp_grp M n = None <-> n = 0 \/ M < n) /\
  forall l, mp_grp M n = Some l ->
    length l = S n /\ nth 0 l 0 = 0 /\ nth n l 0 = M /\
    (forall i, i < n -> M / n <= nth (S i) l 0 - nth i l 0 <= M / n + 1 /\ nth i l 0 < nth (S i) l 0) /\
    (forall f, f < M -> exists i, (i < n /\ nth i l 0 <= f < nth (S i) l 0) /\
                        forall j, j < n -> nth j l 0 <= f < nth (S j) l 0 -> j = i).
Proof.
  intros M n. split.
  - split.
    + intros H. destruct n as [|n]; [left; reflexivity | right]. destruct (le_lt_dec (S n) M) as [h|h]; [ | exact h].
      rewrite mp_grp_some in H by lia. discriminate.
    + intros [->|H]; [reflexivity | apply mp_grp_none; exact H].
  - intros l H. destruct (grp_props M n l H) as (H0 & Hn & A & B' & C & D & E).
    assert (Hq : 1 <= M / n) by (apply Nat.div_le_lower_bound; lia).
    assert (G' : groups n M (fun i => nth i l 0)).
    { split; [exact B' | ]. split; [exact C | ]. intros i Hi. rewrite (D i Hi). destruct (E i Hi); lia. }
    split; [exact A | ]. split; [exact B' | ]. split; [exact C | ]. split.
    + intros i Hi. rewrite (D i Hi). destruct (E i Hi); lia.
    + intros f Hf. destruct (groups_exists n M _ G' f Hf) as (i & Hi & H1 & H2). exists i. split; [tauto | ].
      intros j Hj Hin. apply (groups_unique n M _ G' f j i Hj Hi Hin). lia.
Qed.
Print Assumptions C45_groups.
Example C45_groups_ex : mp_grp 7 3 = Some [0; 3; 5; 7] /\ mp_grp 2 3 = None.
Proof. split; reflexivity. Qed.

(** Any interleaving of the group tasks of a phase that finishes them gives the memory of the group by group execution. *)
Theorem C45_schedule : forall c, groups (ngrp c) (nfilt c) (grp c) ->
  forall f, In f [par_initial_stepgrp c; par_final_stepgrp c; par_stepgrp c; par_compute_residuals c] ->
  forall sched m, complete (ngrp c) sched (tasks c f) m ->
  distribute c (Some sched) f m = distribute c None f m.
Proof.
  intros c Hg f Hf sched m Hc. unfold distribute. apply (interleaving (owner c)); [ | apply owner_lt | exact Hc].
  apply tasks_local; [exact Hg | ]. simpl in Hf. unfold phase. intuition.
Qed.
Print Assumptions C45_schedule.

(** Whole histories of calls of solve. *)
Theorem C45_solve : forall c, groups (ngrp c) (nfilt c) (grp c) ->
  forall calls, Forall (fun a => fair c (c_sched a)) calls ->
  forall km, do_calls c calls km = do_calls c (map serial calls) km.
Proof. intros c Hg calls Hf km. apply calls_sched; assumption. Qed.
Print Assumptions C45_solve.

(** A problem with two groups of filters. *)
Definition c2 : params := mkParams 3 2 2 (fun i => nth i [0; 2; 3] 0) 1%R 1%R 1%R 2%R (fun _ _ => 1%R) (fun _ => 1%R) (fun _ => 0%R) true (fun _ => false)
  (fun i a b f p => (a p + b f p)%R) (fun i a b p => (a p + b 0%nat p)%R).
Example C45_schedule_ex : groups (ngrp c2) (nfilt c2) (grp c2) /\
  fair c2 (fun k ph => Some (concat (repeat [0; 1] 200))).
Proof.
  split.
  - split; [reflexivity | ]. split; [reflexivity | ]. intros i Hi. destruct i as [|[|i]]; [simpl; lia | simpl; lia | simpl in Hi; lia].
  - intros k ph s E f Hf i Hi. assert (E' : s = concat (repeat [0; 1] 200)) by congruence. rewrite E'. clear E E' s.
    assert (C : count_occ Nat.eq_dec (concat (repeat [0; 1] 200)) i = 200).
    { destruct i as [|[|i]]; [reflexivity | reflexivity | simpl in Hi; lia]. }
    rewrite C. destruct Hf as [<-|[<-|[<-|[<-|[]]]]]; destruct i as [|[|i]]; try (simpl in Hi; lia);
      unfold par_stepgrp, par_initial_stepgrp, par_relax_AX; destruct (Req_EM_T (rlx c2) 1); apply Nat.leb_le; reflexivity.
Qed.

(** ** C46 *)
(** The joint update of Y0 over all groups minimises the data fidelity and penalty terms, and is the only minimiser. *)
Theorem C46_y0 : forall c, groups (ngrp c) (nfilt c) (grp c) -> (0 < rho c)%R ->
  forall (S W : nat -> R),
  (forall p, sw c p = S p * W p ^ 2)%R ->
  (forall p, inv_off c p = - W p ^ 2 / (rho c * (rho c + W p ^ 2 * INR (ngrp c))))%R ->
  forall sched m, (forall i, i < ngrp c -> length (par_final_stepgrp c i) <= count_occ Nat.eq_dec sched i) ->
  let y := Y0 (view (distribute c (Some sched) (par_final_stepgrp c) (y0astep c m))) in
  let obj Z := (1 / 2 * sumn (npix c) (fun p => (W p * (sumn (ngrp c) (fun i => Z i p) - S p)) ^ 2) +
                rho c / 2 * sumn (ngrp c) (fun i => sumn (npix c) (fun p => (m (G ADX i p) + m (G AU0 i p) - Z i p) ^ 2)))%R in
  forall Z, (obj y <= obj Z)%R /\
    ((obj Z <= obj y)%R -> forall i p, i < ngrp c -> p < npix c -> Z i p = y i p).
Proof.
  intros c Hg Hr S W HS HW sched m Hs y obj Z.
  assert (Ey : forall i p, i < ngrp c -> p < npix c -> y i p = (1 / rho c * (S p * W p ^ 2) + (m (G ADX i p) + m (G AU0 i p)) +
     - W p ^ 2 / (rho c * (rho c + W p ^ 2 * INR (ngrp c))) * sumn (ngrp c) (fun j => S p * W p ^ 2 + rho c * (m (G ADX j p) + m (G AU0 j p))))%R).
  { intros i p Hi Hp. unfold y. cbn [view Y0]. rewrite (distribute_sched c Hg) by (try apply phase_fin; exact Hs).
    rewrite (distribute_at c Hg _ _ _ (phase_fin c)), (own_G c i AY0 p Hi).
    rewrite (proj1 (sem_final c i) (y0astep c m) (G AY0 i p) eq_refl). unfold fin. rewrite Nat.eqb_refl.
    replace (p <? npix c) with true by (symmetry; apply Nat.ltb_lt; exact Hp). cbn [andb]. unfold y0new, y0astep.
    replace (p <? npix c) with true by (symmetry; apply Nat.ltb_lt; exact Hp). rewrite HS, HW.
    ring. }
  pose proof (y0_joint (ngrp c) (npix c) (fun i p => m (G ADX i p) + m (G AU0 i p))%R W S (rho c) y Z Hr Ey) as K.
  assert (E : forall V : nat -> nat -> R, obj V = sumn (npix c) (fun p => (1 / 2 * (W p * (sumn (ngrp c) (fun i => V i p) - S p)) ^ 2 +
       rho c / 2 * sumn (ngrp c) (fun i => (m (G ADX i p) + m (G AU0 i p) - V i p) ^ 2))%R)).
  { intros V. unfold obj. rewrite sumn_plus, !sumn_scal. f_equal. f_equal. apply sumn_swap. }
  rewrite (E y), (E Z). cbv beta in K.
  assert (Q : forall p, p < npix c -> (0 <= sumn (ngrp c) (fun i => (Z i p - y i p) ^ 2))%R) by (intros p Hp; apply sumn_nonneg; intros i Hi; apply pow2_ge_0).
  pose proof (sumn_nonneg (npix c) _ Q) as Q'. split; [nra | ].
  intros Hle i p Hi Hp.
  assert (Q0 : sumn (npix c) (fun p => sumn (ngrp c) (fun i => (Z i p - y i p) ^ 2))%R = 0%R) by nra.
  pose proof (sumn_nonneg_0 (npix c) _ Q Q0 p Hp) as Q1. cbv beta in Q1.
  pose proof (sumn_nonneg_0 (ngrp c) _ (fun i _ => pow2_ge_0 (Z i p - y i p)) Q1 i Hi) as Q2. cbv beta in Q2. nra.
Qed.
Print Assumptions C46_y0.

(** The Y1 update of every coefficient, including the options NonNegCoef and NoBndryCross, is the minimiser. *)
Theorem C46_y1 : forall c f p v, (0 <= lmbda c / (alpha c ^ 2 * rho c) * ParModel.wl1 c f p)%R ->
  let ok z := (nonneg c = true -> 0 <= z)%R /\ (bnd c p = true -> z = 0%R) in
  let obj z := (lmbda c / (alpha c ^ 2 * rho c) * ParModel.wl1 c f p * Rabs z + 1 / 2 * (z - v) ^ 2)%R in
  ok (y1val c f p v) /\ forall z, ok z -> (obj (y1val c f p v) <= obj z)%R.
Proof.
  intros c f p v Ha ok obj. split.
  - destruct (y1_coef c f p v 0 Ha) as (A & B' & _); [intros; lra | reflexivity | ]. split; assumption.
  - intros z [H1 H2]. destruct (y1_coef c f p v z Ha H1 H2) as (_ & _ & K). exact K.
Qed.
Print Assumptions C46_y1.

(** inner(x, y, axis) of arrays indexed by lists (linalg.py 41): sum over the index at position [axis]. *)
Definition put (axis j : nat) (idx : list nat) : list nat := firstn axis idx ++ j :: skipn (S axis) idx.
Definition inner_axis (shape : list nat) (axis : nat) (x y : list nat -> R) (idx : list nat) : R :=
  sumn (nth axis shape 0) (fun j => (x (put axis j idx) * y (put axis j idx))%R).

(** For a multi-channel dictionary the right hand side of the linear system is summed over the axis whose number is the
    number of channels (par_xstep 153-154: axis=mp_C).  That is the channel axis (number dimN+1 after the move of the filter
    axis to the front) only for dimN+1 channels. *)
Theorem C46_channel_axis : forall dimN C, 2 <= C -> C <= dimN + 2 ->
  ((forall shape x y idx, length shape = dimN + 3 -> nth (dimN + 1) shape 0 = C ->
     inner_axis shape C x y idx = inner_axis shape (dimN + 1) x y idx) <-> C = dimN + 1).
Proof.
  intros dimN C H2 Hmax. split; [ | intros -> *; reflexivity].
  intros H. destruct (Nat.eq_dec C (dimN + 1)) as [e|ne]; [exact e | exfalso].
  set (shape := map (fun i => if Nat.eqb i (dimN + 1) then C else 1) (seq 0 (dimN + 3))).
  assert (N : forall i, i < dimN + 3 -> nth i shape 0 = if Nat.eqb i (dimN + 1) then C else 1).
  { intros i Hi. unfold shape. rewrite (nth_indep _ 0 (if Nat.eqb 0 (dimN + 1) then C else 1)) by (rewrite map_length, seq_length; exact Hi).
    rewrite (map_nth (fun i => if Nat.eqb i (dimN + 1) then C else 1)). rewrite seq_nth by exact Hi. reflexivity. }
  specialize (H shape (fun _ => 1%R) (fun _ => 1%R) [] ltac:(unfold shape; rewrite map_length, seq_length; reflexivity)).
  specialize (H ltac:(rewrite N by lia; rewrite Nat.eqb_refl; reflexivity)).
  unfold inner_axis in H. rewrite !N in H by lia. rewrite Nat.eqb_refl in H.
  destruct (Nat.eqb_spec C (dimN + 1)); [contradiction | ]. rewrite !sumn_const in H.
  assert (E : INR 1 = INR C) by lra. apply INR_eq in E. lia.
Qed.
Print Assumptions C46_channel_axis.
(** Two channels, two dimensional images: the sum goes over the second image axis. *)
Example C46_channel_axis_ex : inner_axis [1; 4; 4; 2; 1] 2 (fun _ => 1%R) (fun _ => 1%R) [0; 0; 0; 0; 0] = 4%R /\
  inner_axis [1; 4; 4; 2; 1] 3 (fun _ => 1%R) (fun _ => 1%R) [0; 0; 0; 0; 0] = 2%R.
Proof. unfold inner_axis. simpl. split; ring. Qed.

(** ** C47 *)
(** Any history of calls of solve on a new object performs ADMM iterations for the documented problem, one after the other, as
    long as no call before the last one ends at its iteration limit with iteration number 256. *)
Theorem C47_iterations : forall c q, instance_of c q ->
  forall calls m0, Forall (fun a => fair c (c_sched a)) calls -> no_gap c calls (0, m0) ->
  exists xsq sq, sq 0 = view m0 /\ iterations q (total_done c calls (0, m0)) xsq sq /\
    steq c (view (snd (do_calls c calls (0, m0)))) (sq (total_done c calls (0, m0))).
Proof.
  intros c q H calls m0 Hf Hn. pose proof (io_grp c q H) as Hg.
  exists (fun k => xmap c (iter c k (view m0))), (fun k => iter c k (view m0)). split; [reflexivity | ]. split.
  - intros k Hk. rewrite iter_S. apply step_is_step. exact H.
  - apply calls_spec; [exact Hg | exact Hf | exact Hn | left; lia].
Qed.
Print Assumptions C47_iterations.

(** The number of iterations: between one and MaxMainIter for each call, and the total is the iteration number. *)
Theorem C47_count : forall c, groups (ngrp c) (nfilt c) (grp c) ->
  forall calls m0, Forall (fun a => fair c (c_sched a) /\ c_maxit a <> 0) calls ->
  forall k, fst (do_calls c calls (k, m0)) = k + total_done c calls (k, m0) /\
            length calls <= total_done c calls (k, m0) <= fold_right Nat.add 0 (map c_maxit calls).
Proof.
  intros c Hg calls. induction calls as [|a r IH]; intros m0 Hf k.
  - simpl. lia.
  - inversion Hf as [|x y [Ha Hz] Hf']; subst. cbn [do_calls fold_left total_done map fold_right length].
    change (fold_left (fun km a => do_call c a km) r (do_call c a (k, m0))) with (do_calls c r (do_call c a (k, m0))).
    assert (K : k < fst (do_call c a (k, m0)) /\ fst (do_call c a (k, m0)) <= k + c_maxit a).
    { unfold do_call, solve. clear IH Hf Hf' Ha. generalize (k + c_maxit a - 1) as last. intros last.
      assert (L : forall todo k1 m, k1 < fst (loop c (c_sched a) (c_rs a) (c_stop a) k last k1 (S todo) m) <= k1 + S todo).
      { intros todo. induction todo as [|todo IHt]; intros k1 m; [simpl; lia | ].
        change (loop c (c_sched a) (c_rs a) (c_stop a) k last k1 (S (S todo)) m) with
          (let m1 := iteration c (c_sched a) (c_rs a) k last k1 m in
           if c_stop a k1 m1 then (S k1, m1) else loop c (c_sched a) (c_rs a) (c_stop a) k last (S k1) (S todo) m1).
        cbv zeta. destruct (c_stop a k1 _); [simpl; lia | ].
        specialize (IHt (S k1) (iteration c (c_sched a) (c_rs a) k last k1 m)). lia. }
      destruct (c_maxit a) as [|N]; [congruence | ]. specialize (L N k m0). lia. }
    destruct (do_call c a (k, m0)) as [k' m'] eqn:E. cbn [fst] in *. specialize (IH m' Hf' k').
    unfold done. destruct (Nat.eqb_spec (c_maxit a) 0) as [e|e]; [congruence | ]. lia.
Qed.
Print Assumptions C47_count.

(** After a call that ends at its limit with iteration 256, the next call starts without an x step: its first iteration
    updates the variables with the coefficient maps of the previous iteration. *)
Theorem C47_gap : forall c, groups (ngrp c) (nfilt c) (grp c) ->
  forall a b k m, fair c (c_sched a) -> fair c (c_sched b) -> k <= 256 -> k + c_maxit a = 257 -> fst (do_call c a (k, m)) = 257 ->
  c_maxit b = 1 ->
  exists d, d + k = 256 /\
  steq c (view (snd (do_calls c [a; b] (k, m)))) (update c (iter c d (view m)) (iter c (S d) (view m))).
Proof.
  intros c Hg a b k m Ha Hb Hk Hlim Hend Hone.
  cbn [do_calls fold_left]. unfold do_call at 2. unfold do_call in Hend. unfold solve in *.
  rewrite (loop_sched c Hg (c_sched a)) in * by exact Ha.
  destruct (c_maxit a) as [|N] eqn:EN; [lia | ].
  pose proof (loop_spec c Hg (c_rs a) (c_stop a) k (k + S N - 1) N k m (le_n k) ltac:(lia) ltac:(tauto)) as L.
  destruct (loop c (fun _ _ => None) (c_rs a) (c_stop a) k (k + S N - 1) k (S N) m) as [k' m'] eqn:E1. cbn [fst] in Hend. subst k'.
  destruct L as (j & J1 & J2 & J3 & J4 & J5 & _). exists (j - 1). split; [lia | ].
  replace (S (j - 1)) with j by lia.
  unfold do_call, solve. rewrite (loop_sched c Hg (c_sched b)) by exact Hb. rewrite Hone. cbn [loop snd].
  specialize (J5 ltac:(lia) ltac:(lia)).
  assert (S1 := iteration_stale c Hg (c_rs b) 257 (257 + 1 - 1) 257 m' (iter c (j - 1) (view m)) eq_refl J5).
  apply (steq_trans c _ _ _ S1). destruct J4 as [J4a J4b].
  assert (B' : forall p, p < npix c -> b_of c (iter c (j - 1) (view m)) (view m') p = b_of c (iter c (j - 1) (view m)) (iter c j (view m)) p).
  { intros p Hp. unfold b_of. f_equal. apply sumn_ext. intros i Hi. destruct (J4a i p Hi Hp) as [_ ->]. reflexivity. }
  split.
  - intros i p Hi Hp. cbn [update Y0 U0]. rewrite (B' p Hp). destruct (J4a i p Hi Hp) as [_ ->]. split; reflexivity.
  - intros f p Hf Hp. cbn [update Y1 U1]. destruct (J4b f p Hf Hp) as [_ ->]. split; reflexivity.
Qed.
Print Assumptions C47_gap.
(** A call of solve(MaxMainIter = N) in one process that never stops early. *)
Definition plain (N : nat) : call := mkCall (fun _ _ => None) true (fun _ _ => false) N.
Lemma plain_fair : forall c N, fair c (c_sched (plain N)).
Proof. intros c N k ph s E. discriminate. Qed.
Lemma plain_end : forall c N k m, N <> 0 -> fst (do_call c (plain N) (k, m)) = k + N.
Proof.
  intros c N k m HN. unfold do_call, solve. cbn [c_sched c_rs c_stop c_maxit plain]. generalize (k + N - 1) as last. intros last.
  assert (L : forall first todo k1 m, fst (loop c (fun _ _ => None) true (fun _ _ => false) first last k1 (S todo) m) = k1 + S todo).
  { intros first todo. induction todo as [|todo IH]; intros k1 m1; [simpl; lia | ].
    change (loop c (fun _ _ => None) true (fun _ _ => false) first last k1 (S (S todo)) m1) with
      (loop c (fun _ _ => None) true (fun _ _ => false) first last (S k1) (S todo) (iteration c (fun _ _ => None) true first last k1 m1)).
    rewrite IH. lia. }
  destruct N as [|N]; [congruence | ]. apply L.
Qed.

(** solve with MaxMainIter = 257, then with MaxMainIter = 1, is not 258 iterations. *)
Theorem C47_gap_refuted : exists c q m0 f p, instance_of c q /\ f < nfilt c /\ p < npix c /\
  total_done c [plain 257; plain 1] (0, m0) = 258 /\
  (forall xsq sq, sq 0 = view m0 -> iterations q 258 xsq sq ->
   Y1 (view (snd (do_calls c [plain 257; plain 1] (0, m0)))) f p <> Y1 (sq 258) f p).
Proof.
  exists (c1 1), (q1 1), zero, 0, 0. split; [apply c1_instance | ]. split; [simpl; lia | ]. split; [simpl; lia | ].
  assert (E1 : fst (do_call (c1 1) (plain 257) (0, zero)) = 257) by (apply plain_end; discriminate).
  split.
  - cbn [total_done]. unfold done. cbn [c_maxit plain fst].
    rewrite E1. destruct (do_call (c1 1) (plain 257) (0, zero)) as [k' m'] eqn:E. cbn [fst] in E1. subst k'.
    cbn [fst]. rewrite plain_end by discriminate. reflexivity.
  - intros xsq sq H0 Hs. destruct (q1_iterations 1 257 xsq sq H0 Hs) as (_ & _ & L3).
    destruct (C47_gap (c1 1) (c1_groups 1) (plain 257) (plain 1) 0 zero (plain_fair _ _) (plain_fair _ _) ltac:(lia) eq_refl E1 eq_refl) as (d & Hd & G').
    assert (Ed : d = 256) by lia. subst d.
    destruct G' as [_ G']. destruct (G' 0 0) as [-> _]; [simpl; lia | simpl; lia | ].
    destruct (c1_update 1 (iter (c1 1) 256 (view zero)) (iter (c1 1) 257 (view zero))) as (_ & _ & C & _). cbv zeta in C. rewrite C.
    rewrite (proj1 (c1_x 1 (iter (c1 1) 256 (view zero)))).
    destruct (c1_iter 1 255) as (I1 & I2 & I3). destruct (c1_iter 1 256) as (_ & K2 & _).
    cbv zeta in *. rewrite I1, I2, I3, K2, L3.
    change ((1 / 2) ^ 257)%R with (1 / 2 * (1 / 2 * (1 / 2) ^ 255))%R.
    assert (0 < (1 / 2) ^ 255)%R by (apply pow_lt; lra). lra.
Qed.
Print Assumptions C47_gap_refuted.

(** Reported primal residual: r^2 is the sum of the components (786).  It belongs to the coefficient maps of the iteration only
    if the iteration is the last of its call (and its number at most 256); otherwise the maps of the next iteration have
    already been stored. *)
Definition prires (q : problem) (X : nat -> nat -> R) (s : st) : R :=
  (sumG q (fun i p => (pD q i X p - Y0 s i p) ^ 2) + sumF q (fun f p => (palpha q * X f p - palpha q * Y1 s f p) ^ 2))%R.
Definition reported (c : params) (m : pmem) : R := (sumn (ngrp c) (fun i => m (Res Ry0 i)) + sumn (ngrp c) (fun i => m (Res Ry1 i)))%R.

Theorem C47_residual : forall c q, instance_of c q -> forall sc first last k m, fair c sc ->
  is_same k first = true \/ ahead c m ->
  let m' := iteration c sc true first last k m in
  exists X s1 X' s2, is_step q X (view m) s1 /\ steq c (view m') s1 /\ is_step q X' (view m') s2 /\
    reported c m' = prires q (if is_same k last then X else X') (view m').
Proof.
  intros c q H sc first last k m Hf Hr m'. pose proof (io_grp c q H) as Hg. unfold m'. rewrite (iteration_sched c Hg sc) by exact Hf. clear m'.
  destruct (iteration_spec c Hg true first last k m Hr) as (S1 & S2 & S3 & _ & _ & S6). cbv zeta in *.
  set (m' := iteration c (fun _ _ => None) true first last k m) in *.
  exists (xmap c (view m)), (step c (view m)), (xmap c (view m')), (step c (view m')).
  split; [apply step_is_step; exact H | ]. split; [exact S1 | ]. split; [apply step_is_step; exact H | ].
  assert (K : forall s, maps_of c s m' -> reported c m' = prires q (xmap c s) (view m')).
  { intros s [M1 M2]. unfold reported, prires.
    rewrite !(sumn_ext (ngrp c) _ _ (fun i Hi => S6 eq_refl _ i Hi)). unfold sumG, sumF.
    rewrite (io_n c q H), (io_P c q H), (io_M c q H), (io_a c q H). f_equal.
    - apply sumn_ext. intros i Hi. unfold resid. apply sumn_ext. intros p Hp.
      rewrite (D_xmap c q H s i p Hi Hp). destruct (M2 i p Hi Hp) as [_ ->]. reflexivity.
    - rewrite (sum_groups (ngrp c) (nfilt c) (grp c) _ Hg). apply sumn_ext. intros i Hi. unfold resid, sumf.
      rewrite <- sumn_scal. apply sumn_ext. intros j Hj. rewrite <- sumn_scal. apply sumn_ext. intros p Hp.
      assert (Hfl : grp c i + j < nfilt c) by (apply (ing_lt c Hg i); [exact Hi | apply ing_j; exact Hj]).
      destruct (M1 (grp c i + j) p Hfl Hp) as [_ ->]. cbn [view Y1]. ring. }
  destruct (is_same k last); [apply K, S3; reflexivity | apply K, S2; reflexivity].
Qed.
Print Assumptions C47_residual.

(** Second iteration of a call with three: the residual of the iterates is zero, the reported one is not. *)
Theorem C47_residual_refuted : exists c q m0, instance_of c q /\
  let m1 := iteration c (fun _ _ => None) true 0 2 0 m0 in
  let m2 := iteration c (fun _ _ => None) true 0 2 1 m1 in
  exists X s1, is_step q X (view m1) s1 /\ steq c (view m2) s1 /\
    prires q X (view m2) = 0%R /\ reported c m2 = (1 / 8)%R.
Proof.
  exists (c1 1), (q1 1), zero. pose proof (c1_instance 1) as H. split; [exact H | ]. intros m1 m2.
  destruct (iteration_spec (c1 1) (c1_groups 1) true 0 2 0 zero (or_introl eq_refl)) as (S1 & S2 & _). cbv zeta in S1, S2. fold m1 in S1, S2.
  specialize (S2 eq_refl).
  destruct (iteration_spec (c1 1) (c1_groups 1) true 0 2 1 m1 (or_intror S2)) as (T1 & T2 & _ & _ & _ & T6). cbv zeta in T1, T2, T6. fold m2 in T1, T2, T6.
  specialize (T2 eq_refl).
  assert (V1 : steq (c1 1) (view m1) (iter (c1 1) 1 (view zero))) by exact S1.
  assert (V2 : steq (c1 1) (view m2) (iter (c1 1) 2 (view zero))).
  { apply (steq_trans _ _ _ _ T1). change (iter (c1 1) 2 (view zero)) with (step (c1 1) (iter (c1 1) 1 (view zero))).
    apply (step_steq _ (c1_groups 1)). exact V1. }
  assert (A1 : Y0 (view m1) 0 0 = (1 / 2)%R /\ U0 (view m1) 0 0 = (- (1 / 2))%R /\ Y1 (view m1) 0 0 = 0%R /\ U1 (view m1) 0 0 = 0%R).
  { destruct V1 as [P1 P2]. destruct (P1 0 0) as [-> ->]; [simpl; lia | simpl; lia | ]. destruct (P2 0 0) as [-> ->]; [simpl; lia | simpl; lia | ].
    cbn [iter]. unfold step. destruct (c1_update 1 (view zero) (view zero)) as (A & B' & C & D). cbv zeta in *. rewrite A, B', C, D.
    rewrite (proj1 (c1_x 1 (view zero))). cbn [view Y0 Y1 U0 U1]. unfold zero. split; [field | ]. split; [field | ]. split; [field | reflexivity]. }
  destruct A1 as (B1 & B2 & B3 & B4).
  assert (X1 : xmap (c1 1) (view m1) 0 0 = (1 / 2)%R) by (rewrite (proj1 (c1_x 1 (view m1))), B1, B2, B3, B4; field).
  assert (A2 : Y0 (view m2) 0 0 = (1 / 2)%R /\ U0 (view m2) 0 0 = (- (1 / 2))%R /\ Y1 (view m2) 0 0 = (1 / 2)%R /\ U1 (view m2) 0 0 = 0%R).
  { destruct T1 as [P1 P2]. destruct (P1 0 0) as [-> ->]; [simpl; lia | simpl; lia | ]. destruct (P2 0 0) as [-> ->]; [simpl; lia | simpl; lia | ].
    unfold step. destruct (c1_update 1 (view m1) (view m1)) as (A & B' & C & D). cbv zeta in *. rewrite A, B', C, D, X1, B2, B4.
    split; [field | ]. split; [field | ]. split; [field | reflexivity]. }
  destruct A2 as (D1 & D2 & D3 & D4).
  assert (X2 : xmap (c1 1) (view m2) 0 0 = (3 / 4)%R) by (rewrite (proj1 (c1_x 1 (view m2))), D1, D2, D3, D4; field).
  exists (xmap (c1 1) (view m1)), (step (c1 1) (view m1)). split; [apply step_is_step; exact H | ]. split; [exact T1 | ]. split.
  - unfold prires, sumG, sumF. cbn [pn pM pP pD palpha q1 sumn]. rewrite X1, D1, D3. field.
  - destruct T2 as [M1 M2]. destruct (M1 0 0) as [_ N1]; [simpl; lia | simpl; lia | ]. destruct (M2 0 0) as [_ N2]; [simpl; lia | simpl; lia | ].
    unfold reported. cbn [ngrp c1 sumn]. fold (c1 1). rewrite !(T6 eq_refl) by (simpl; lia). unfold resid, sumf. cbn [npix c1 sumn grp alpha Nat.sub Nat.add].
    fold (c1 1). rewrite N1, N2. rewrite (proj2 (c1_x 1 (view m2))), X2.
    change (m2 (G AY0 0 0)) with (Y0 (view m2) 0 0). change (m2 (F AY1 0 0)) with (Y1 (view m2) 0 0). rewrite D1, D3. field.
Qed.
Print Assumptions C47_residual_refuted.

(** ** C48 *)
Definition no_starts : starts := mkStarts None None None None.
Definition ready (w : world) : Prop := w_Y0 w = true /\ w_Y1 w = true /\ w_U0 w = true /\ w_U1 w = true.

(** An object used before the next one is constructed gives the results it would give in a new process, whatever was done
    before its construction. *)
Theorem C48_one_after_the_other : forall j c x0 w w' l,
  option_map snd (solves j l (construct j c x0 no_starts w)) = option_map snd (solves j l (construct j c x0 no_starts w')).
Proof.
  intros j c x0 w w' l.
  assert (K : forall l u u', w_c u = w_c u' -> w_m u = w_m u' -> w_k u j = w_k u' j -> ready u -> ready u' ->
    option_map snd (solves j l u) = option_map snd (solves j l u')).
  { clear. intros l. induction l as [|a r IH]; intros u u' Hc Hm Hk Hu Hu'; [reflexivity | ].
    cbn [solves]. unfold solve_obj. destruct Hu as (-> & -> & -> & ->). destruct Hu' as (-> & -> & -> & ->). cbn [andb].
    rewrite Hc, Hm, Hk. destruct (do_call (w_c u') a (w_k u' j, w_m u')) as [k m].
    match goal with |- option_map snd (match solves j r ?v with _ => _ end) = option_map snd (match solves j r ?v' with _ => _ end) =>
      specialize (IH v v') end.
    cbn [w_c w_m w_k w_Y0 w_Y1 w_U0 w_U1] in IH. unfold upd in IH. rewrite Nat.eqb_refl in IH.
    specialize (IH eq_refl eq_refl eq_refl ltac:(repeat split) ltac:(repeat split)).
    destruct (solves j r _) as [[? ?]|], (solves j r _) as [[? ?]|]; cbn [option_map snd] in *; congruence. }
  apply K; try reflexivity; try (repeat split).
  - cbn [construct w_k]. unfold upd. rewrite Nat.eqb_refl. reflexivity.
Qed.
Print Assumptions C48_one_after_the_other.

(** Solving object [a] after the construction of object [b] gives the result of [b]. *)
Theorem C48_last_constructed : forall a b ca cb xa xb w call,
  a <> b ->
  option_map snd (solve_obj a call (construct b cb xb no_starts (construct a ca xa no_starts w))) =
  option_map snd (solve_obj b call (construct b cb xb no_starts w)).
Proof.
  intros a b ca cb xa xb w call Hab. unfold solve_obj, construct. cbn [w_Y0 w_Y1 w_U0 w_U1 w_c w_m w_k sY0 sY1 sU0 sU1 no_starts is_some andb].
  unfold upd. rewrite Nat.eqb_refl. destruct (Nat.eqb_spec a b); [contradiction | ]. rewrite !Nat.eqb_refl.
  match goal with |- option_map snd (let '(_, _) := ?x in _) = option_map snd (let '(_, _) := ?y in _) => change x with y; destruct y end.
  reflexivity.
Qed.
Print Assumptions C48_last_constructed.

(** Two objects for different signals: the first returns the solution for the signal of the second. *)
Theorem C48_refuted : exists ca cb xa call w, fair ca (c_sched call) /\
  forall wa ya wb yb,
  solve_obj 0 call (construct 0 ca xa no_starts w) = Some (wa, ya) ->
  solve_obj 0 call (construct 1 cb xa no_starts (construct 0 ca xa no_starts w)) = Some (wb, yb) ->
  ya 0 0 <> yb 0 0.
Proof.
  exists (c1 1), (c1 2), (fun _ _ => 0%R), (plain 2), (mkWorld (c1 1) zero false false false false (fun _ => 0)). split; [apply plain_fair | ].
  intros wa ya wb yb.
  assert (R1 : forall s1 w c' (k : nat -> nat) m kk, m = zero -> kk = 0 ->
    forall w' y, (let '(k0, m') := do_call (c1 s1) (plain 2) (kk, m) in
      Some (mkWorld c' m' true true true true (upd k 0 k0), fun f p => m' (F AY1 f p))) = Some (w', y) -> w = w' -> y 0 0 = (s1 * (1 / 2))%R).
  { intros s1 w c' k m kk -> -> w' y E _.
    pose proof (call_spec (c1 s1) (c1_groups s1) (plain 2) 0 zero (plain_fair _ _) ltac:(left; lia)) as S.
    pose proof (plain_end (c1 s1) 2 0 zero ltac:(discriminate)) as E2.
    destruct (do_call (c1 s1) (plain 2) (0, zero)) as [k0 m'] eqn:Ed. cbn [fst] in E2. subst k0. injection E as _ <-.
    destruct S as (_ & _ & [_ S] & _). destruct (S 0 0) as [S1 _]; [simpl; lia | simpl; lia | ].
    cbn [view Y1] in S1. rewrite S1. change (done (plain 2) 0 (0 + 2)) with 2. destruct (c1_iter s1 1) as (_ & _ & C). cbv zeta in C. rewrite C. simpl pow. field. }
  unfold solve_obj, construct. cbn [w_Y0 w_Y1 w_U0 w_U1 w_c w_m w_k sY0 sY1 sU0 sU1 no_starts is_some andb].
  intros Ea Eb.
  assert (Z1 : forall h : loc -> R, (forall l, h l = 0%R) -> h = zero) by (intros h Hh; apply functional_extensionality; exact Hh).
  match type of Ea with context [do_call _ _ (_, ?h)] => pose proof (Z1 h ltac:(intros l; destruct l as [[]|[]| | |]; reflexivity)) as Za end.
  match type of Eb with context [do_call _ _ (_, ?h)] => pose proof (Z1 h ltac:(intros l; destruct l as [[]|[]| | |]; reflexivity)) as Zb end.
  rewrite (R1 1%R wa (c1 1) _ _ _ Za eq_refl wa ya Ea eq_refl).
  rewrite (R1 2%R wb (c1 2) _ _ _ Zb eq_refl wb yb Eb eq_refl).
  lra.
Qed.
Print Assumptions C48_refuted.

(** Starting values given by the options are not used: with one of them solve fails in a new process, and otherwise starts from
    the array left by the previous object. *)
Theorem C48_start_values_refuted : forall j c x0 w y0,
  let o := mkStarts (Some y0) None None None in
  (w_Y0 w = false -> forall call, solve_obj j call (construct j c x0 o w) = None) /\
  (forall i p, w_m (construct j c x0 o w) (G AY0 i p) = w_m w (G AY0 i p)) /\
  (forall y0' call, option_map snd (solve_obj j call (construct j c x0 o w)) =
                    option_map snd (solve_obj j call (construct j c x0 (mkStarts (Some y0') None None None) w))).
Proof.
  intros j c x0 w y0 o. split; [ | split].
  - intros Hw call. unfold solve_obj, construct. cbn [w_Y0 o sY0 is_some]. rewrite Hw. reflexivity.
  - reflexivity.
  - intros y0' call. reflexivity.
Qed.
Print Assumptions C48_start_values_refuted.

(** The same for each of the four starting values and any combination: a given value is never used (an array with one keeps what it was, one
    without is zero), the result depends only on which values are given, and solve fails exactly if one is given for an array that no earlier
    object has created. *)
Theorem C48_start_values_all_refuted : forall j c x0 w o,
  let m := w_m (construct j c x0 o w) in
  (forall y, sY0 o = Some y -> forall i p, m (G AY0 i p) = w_m w (G AY0 i p)) /\ (sY0 o = None -> forall i p, m (G AY0 i p) = 0%R) /\
  (forall y, sY1 o = Some y -> forall i p, m (F AY1 i p) = w_m w (F AY1 i p)) /\ (sY1 o = None -> forall i p, m (F AY1 i p) = 0%R) /\
  (forall y, sU0 o = Some y -> forall i p, m (G AU0 i p) = w_m w (G AU0 i p)) /\ (sU0 o = None -> forall i p, m (G AU0 i p) = 0%R) /\
  (forall y, sU1 o = Some y -> forall i p, m (F AU1 i p) = w_m w (F AU1 i p)) /\ (sU1 o = None -> forall i p, m (F AU1 i p) = 0%R) /\
  (forall call, solve_obj j call (construct j c x0 o w) = None <->
     (sY0 o <> None /\ w_Y0 w = false) \/ (sY1 o <> None /\ w_Y1 w = false) \/ (sU0 o <> None /\ w_U0 w = false) \/ (sU1 o <> None /\ w_U1 w = false)) /\
  (forall o' call, (sY0 o = None <-> sY0 o' = None) -> (sY1 o = None <-> sY1 o' = None) -> (sU0 o = None <-> sU0 o' = None) ->
     (sU1 o = None <-> sU1 o' = None) -> solve_obj j call (construct j c x0 o w) = solve_obj j call (construct j c x0 o' w)).
Proof.
  intros j c x0 w [y0 y1 u0 u1]. cbv zeta. cbn [sY0 sY1 sU0 sU1].
  do 8 (split; [intros; subst; reflexivity | ]). split.
  - intros call. unfold solve_obj, construct. cbn [w_Y0 w_Y1 w_U0 w_U1 w_c w_m w_k sY0 sY1 sU0 sU1].
    destruct (do_call _ _ _) as [k m].
    destruct y0, y1, u0, u1, (w_Y0 w), (w_Y1 w), (w_U0 w), (w_U1 w); cbn [is_some andb]; split; intros H; try discriminate; try reflexivity;
      intuition (try discriminate; try congruence).
  - intros [y0' y1' u0' u1'] call. cbn [sY0 sY1 sU0 sU1]. intros H0 H1 H2 H3. unfold construct. cbn [sY0 sY1 sU0 sU1].
    assert (E : forall (a b : option (nat -> nat -> R)), (a = None <-> b = None) -> is_some a = is_some b).
    { intros [a|] [b|] [P Q]; try reflexivity; [discriminate (Q eq_refl) | discriminate (P eq_refl)]. }
    rewrite (E _ _ H0), (E _ _ H1), (E _ _ H2), (E _ _ H3). reflexivity.
Qed.
Print Assumptions C48_start_values_all_refuted.
