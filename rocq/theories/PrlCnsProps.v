(** C49: parallel consensus dictionary learning. *)
Require Import Reals List Arith Bool Lia Lra FunctionalExtensionality.
Require Import Verif.RVec Verif.ProxModel Verif.ProxProofs Verif.InterModel Verif.InterProofs Verif.AssignModel Verif.AssignProofs Verif.PrlCnsModel Verif.PrlCnsProofs.
Import ListNotations.
Local Open Scope nat_scope.

(** One iteration: every interleaving of the per-signal tasks that lets them finish gives all shared arrays the values of the loop
    over the signals, for the plain and the masked class. *)
Theorem C49_schedule : forall c d, d = plain c \/ d = masked c ->
  forall s, (forall k, k < nK c -> length (tasks c d k) <= count_occ Nat.eq_dec s k) ->
  forall m, vars (step_par c d s m) = vars (step_0 c d m).
Proof.
  intros c d Hd s Hs m. rewrite step_0_vars. apply step_par_vars; [ | exact Hs].
  destruct Hd as [->| ->]; [apply plain_ok | apply masked_ok].
Qed.
Print Assumptions C49_schedule.

(** The condition on the schedule is exactly that all tasks finish. *)
Theorem C49_schedule_complete : forall c d s m,
  (forall k, k < nK c -> length (tasks c d k) <= count_occ Nat.eq_dec s k) <-> complete (nK c) s (tasks c d) m.
Proof. intros c d s m. apply enough_turns. Qed.
Print Assumptions C49_schedule_complete.

(** Histories of calls of solve, each with its number of iterations, callback and number of processes, and any schedule in each iteration. *)
Record pcall := mkCall { pc_mx : nat; pc_cb : nat -> (ploc -> R) -> bool; pc_sched : nat -> option (list nat) }.
Definition pc_step (c : pcfg) (d : cls) (a : pcall) (i : nat) (m : mem (xloc ploc) R) : mem (xloc ploc) R :=
  match pc_sched a i with None => step_0 c d m | Some s => step_par c d s m end.
Definition pc_run {Ev} (c : pcfg) (d : cls) (ev : (ploc -> R) -> Ev) (calls : list pcall) (o : pobj Ev) : pobj Ev :=
  fold_left (fun o a => solve ev (pc_cb a) (pc_step c d a) (pc_mx a) o) calls o.
Definition no_pool (a : pcall) : pcall := mkCall (pc_mx a) (pc_cb a) (fun _ => None).

Theorem C49_solve : forall c d, d = plain c \/ d = masked c -> forall (Ev : Type) (ev : (ploc -> R) -> Ev) calls,
  (forall a i s, In a calls -> pc_sched a i = Some s -> forall k, k < nK c -> length (tasks c d k) <= count_occ Nat.eq_dec s k) ->
  forall o, let r := pc_run c d ev calls o in let r0 := pc_run c d ev (map no_pool calls) o in
  vars (om r) = vars (om r0) /\ oj r = oj r0 /\ ost r = ost r0.
Proof.
  intros c d Hd Ev ev calls Hf o. cbv zeta.
  assert (G : forall o1 o2, vars (om o1) = vars (om o2) /\ oj o1 = oj o2 /\ ost o1 = ost o2 ->
    vars (om (pc_run c d ev calls o1)) = vars (om (pc_run c d ev (map no_pool calls) o2)) /\
    oj (pc_run c d ev calls o1) = oj (pc_run c d ev (map no_pool calls) o2) /\ ost (pc_run c d ev calls o1) = ost (pc_run c d ev (map no_pool calls) o2)).
  { unfold pc_run. clear o. induction calls as [|a calls IH]; intros o1 o2 H; [exact H | ]. cbn [map fold_left]. apply IH.
    { intros a' i s Ha. apply Hf. right. exact Ha. }
    destruct H as (H1 & H2 & H3). unfold solve. rewrite H2. cbv zeta. cbn [om oj ost].
    destruct (loop_vars Ev ev (pc_cb a) (pc_step c d a) (pc_step c d (no_pool a)) (pc_mx a) (oj o2) o1 o2) as (E1 & E2 & E3); try assumption.
    - intros i m1 m2 E. unfold pc_step. cbn [pc_sched no_pool]. destruct (pc_sched a i) as [s|] eqn:Es.
      + rewrite (C49_schedule c d Hd s) by (intros k Hk; apply (Hf a i s); [left; reflexivity | exact Es | exact Hk]).
        rewrite !step_0_vars, E. reflexivity.
      + rewrite !step_0_vars, E. reflexivity.
    - cbn [no_pool pc_mx pc_cb]. rewrite E1, E2, E3. repeat split. }
  apply G. repeat split.
Qed.
Print Assumptions C49_solve.

(** Iteration records are numbered consecutively from 0 over any history in which every call makes at least one iteration ... *)
Theorem C49_numbering : forall c d (Ev : Type) (ev : (ploc -> R) -> Ev) calls m,
  (forall a, In a calls -> pc_mx a <> 0) ->
  let r := pc_run c d ev calls (mkO m 0 []) in map fst (ost r) = seq 0 (oj r).
Proof.
  intros c d Ev ev calls m Hc. cbv zeta.
  assert (G : forall o : pobj Ev, map fst (ost o) = seq 0 (oj o) -> map fst (ost (pc_run c d ev calls o)) = seq 0 (oj (pc_run c d ev calls o))).
  { unfold pc_run. induction calls as [|a calls IH]; intros o H; [exact H | ]. cbn [fold_left]. apply IH.
    - intros a' Ha. apply Hc. right. exact Ha.
    - unfold solve. cbv zeta. cbn [oj ost]. apply loop_numbers; [exact H | apply Hc; left; reflexivity]. }
  apply G. reflexivity.
Qed.
Print Assumptions C49_numbering.
(** ... and a call with MaxMainIter = 0 leaves a gap. *)
Theorem C49_numbering_refuted : exists c calls, forall m, let r := pc_run c (plain c) (fun _ => tt) calls (mkO m 0 []) in
  map fst (ost r) = [1] /\ oj r = 2.
Proof.
  exists (mkP 0 (fun _ => 0) (fun _ => 0) 1 1 1 1 1 (fun _ _ v => v) (fun v => v) (fun _ v => v) (fun _ _ v => v) (fun v => v) (fun v => v) (fun _ v => v)
    (fun _ _ v => v) (fun _ _ v => v) (fun _ _ v => v) (fun _ _ v => v) false).
  exists [mkCall 0 (fun _ _ => false) (fun _ => None); mkCall 1 (fun _ _ => false) (fun _ => None)].
  intros m. split; reflexivity.
Qed.
Print Assumptions C49_numbering_refuted.

(** The iteration is that of the serial class: one iteration of sparse coding for all signals, then one of the consensus dictionary update,
    without coefficient weights, non-negativity or boundary constraints, when padding the cropped dictionary gives the dictionary back. *)
Theorem C49_serial : forall c o, (forall k p, wl1 o k p = 1%R) -> nonneg o = false -> nobnd o = None ->
  (forall w u, (forall p, p < ssize c DY -> w p = dprox c u p) -> sdfft o (crop o w) = dfft c w) ->
  forall s, (forall k, k < nK c -> length (tasks c (plain c) k) <= count_occ Nat.eq_dec s k) ->
  forall m, vars (step_par c (plain c) s m) = s_step c o (vars m).
Proof.
  intros c o Hw Hn Hb Hd s Hs m. rewrite step_par_vars by (try exact Hs; apply plain_ok).
  cbn [rest group plain]. rewrite step_group_stages. cbv zeta.
  unfold s_step, s_ccmod, s_setcoef, s_cbpdn, whole. cbv zeta.
  assert (Ey : forall k, s_ystep c o k = cbpdn_ystep c k).
  { intros k. unfold s_ystep, cbpdn_ystep. rewrite Hn, Hb. cbn [app]. f_equal. f_equal. apply functional_extensionality. intros v.
    f_equal. apply functional_extensionality. intros p. rewrite Hw. ring. }
  replace (s_ystep c o) with (cbpdn_ystep c) by (apply functional_extensionality; intros k; symmetry; apply Ey).
  set (v0 := if eqb (drlx c) 1 then _ else _).
  unfold step_rest, do_prog. rewrite app_assoc, fold_left_app. unfold s_setdict, do_prog, cbpdn_setdict.
  set (v1 := fold_left _ (ccmod_ystep c ++ ccmod_ustep c) v0). cbn [fold_left].
  assert (E : do_stmt ploc_eqb (sset c DF (fun v => dfft c (sv v DY))) v1 = do_stmt ploc_eqb (sset c DF (fun v => sdfft o (crop o (sv v DY)))) v1).
  { apply functional_extensionality. intros l. unfold do_stmt. cbn [dst sset]. destruct (inl ploc_eqb l _); [ | reflexivity].
    cbn [rhs sset]. destruct l as [a k p|a p]; [reflexivity | ]. apply (f_equal (fun g => g p)). symmetry.
    apply (Hd _ (fun p => sumn (nK c) (fun k => kv v0 DX k p + kv v0 DU k p) / INR (nK c))%R).
    intros q Hq. unfold sv at 1, v1, ccmod_ystep, ccmod_ustep. cbn [app fold_left].
    unfold do_stmt at 1. rewrite in_kall_s. unfold do_stmt. rewrite in_sset. replace (q <? ssize c DY) with true by (symmetry; apply Nat.ltb_lt; exact Hq).
    reflexivity. }
  rewrite E. reflexivity.
Qed.
Print Assumptions C49_serial.

(** An instance: two signals, zero padding of dictionary filters with three samples of which the first two may be non-zero. *)
Definition c3 : pcfg := mkP 2 (fun _ => 3) (fun _ => 3) 1 1 1 2 2 (fun df dsf yu p => df p + dsf p + yu p)%R (fun v => v) (fun zf sf p => zf p * sf p)%R
  (fun zf zsf yu p => zf p + zsf p + yu p)%R (fun v p => if p <? 2 then v p else 0%R) (fun v p => if p <? 3 then v p else 0%R)
  (fun df sf p => df p * sf p)%R (fun _ _ v => v) (fun _ _ v => v) (fun _ _ v => v) (fun _ _ v => v) false.
Definition o3 : sopt := mkS (fun _ _ => 1%R) false None (fun v p => if p <? 2 then v p else 0%R) (fun v p => if p <? 2 then v p else 0%R).
Example C49_serial_ex : (forall w u, (forall p, p < ssize c3 DY -> w p = dprox c3 u p) -> sdfft o3 (crop o3 w) = dfft c3 w) /\
  (forall k, k < nK c3 -> length (tasks c3 (plain c3) k) <= count_occ Nat.eq_dec (concat (repeat [1; 0] 60)) k) /\
  (forall k, k < nK c3 -> length (tasks c3 (masked c3) k) <= count_occ Nat.eq_dec (concat (repeat [1; 0] 90)) k).
Proof.
  split.
  - intros w u H. apply functional_extensionality. intros p. cbn [ssize dprox dfft sdfft crop c3 o3] in *. destruct (Nat.ltb_spec p 2), (Nat.ltb_spec p 3); try lia; try reflexivity.
    assert (p = 2) by lia. subst p. rewrite (H 2 ltac:(auto)). reflexivity.
  - split; intros k Hk; [assert (C : count_occ Nat.eq_dec (concat (repeat [1; 0] 60)) k = 60) | assert (C : count_occ Nat.eq_dec (concat (repeat [1; 0] 90)) k = 90)];
      try (destruct k as [|[|k]]; [reflexivity | reflexivity | simpl in Hk; lia]); rewrite C;
      (destruct k as [|[|k]]; [ | | simpl in Hk; lia]); unfold tasks, plain, masked, group, step_group, md_step_group;
      replace (neq1 (xrlx c3)) with true by (unfold neq1, eqb; cbn [xrlx c3]; destruct (Req_EM_T 2 1); [lra | reflexivity]);
      replace (neq1 (drlx c3)) with true by (unfold neq1, eqb; cbn [drlx c3]; destruct (Req_EM_T 2 1); [lra | reflexivity]);
      apply Nat.leb_le; reflexivity.
Qed.

(** Coefficient values after the sparse coding part of a task. *)
Lemma zy_value : forall c k p v, xrlx c = 1%R -> drlx c = 1%R -> k < nK c -> p < ksize c ZY -> p < ksize c ZX ->
  vars (step_0 c (plain c) v) (K ZY k p) =
  prox_l1 (fun p => xsol c (sv (vars v) DF) (kv (vars v) DSF k) (fun p => kv (vars v) ZY k p - kv (vars v) ZU k p) p + kv (vars v) ZU k p)%R (fun _ => lmbda c / xrho c)%R p.
Proof.
  intros c k p m Hx Hd Hk Hp Hp'. rewrite step_0_vars. set (v := vars m).
  assert (E1 : forall w, do_prog ploc_eqb (rest (plain c)) w (K ZY k p) = w (K ZY k p)).
  { intros w. cbn [rest plain]. unfold step_rest, ccmod_ystep, ccmod_ustep, cbpdn_setdict, do_prog. cbn [app fold_left].
    unfold do_stmt. rewrite !in_kall, !in_sset_k. reflexivity. }
  rewrite E1. rewrite (do_seq_at ploc_eqb ploc_eqb_spec (owner c) (nK c) (owner_lt c)) by (apply plain_ok).
  cbn [owner]. replace (k <? nK c) with true by (symmetry; apply Nat.ltb_lt; exact Hk).
  cbn [group plain]. unfold step_group.
  assert (N : forall x, x = 1%R -> neq1 x = false) by (intros x ->; unfold neq1, eqb; destruct (Req_EM_T 1 1); [reflexivity | lra]).
  rewrite !N by assumption. unfold cbpdn_xstep, cbpdn_ystep, cbpdn_ustep, ccmod_setcoef, ccmod_xstep, do_prog. cbn [app fold_left].
  assert (P : p <? ksize c ZY = true) by (apply Nat.ltb_lt; exact Hp).
  assert (P' : p <? ksize c ZX = true) by (apply Nat.ltb_lt; exact Hp').
  do 4 (unfold do_stmt at 1; rewrite in_kset; cbn [karr_eqb andb]).
  unfold do_stmt at 1. rewrite in_kset, P, Nat.eqb_refl. cbn [karr_eqb andb]. cbn [rhs kset]. unfold prox_l1.
  set (v1 := do_stmt ploc_eqb _ v).
  assert (E2 : kv v1 ZU k p = kv v ZU k p) by (unfold kv, v1, do_stmt; rewrite in_kset; reflexivity).
  assert (E3 : kv v1 ZX k p = xsol c (sv v DF) (kv v DSF k) (fun p => kv v ZY k p - kv v ZU k p)%R p).
  { unfold v1. unfold kv at 1. unfold do_stmt. rewrite in_kset, P', Nat.eqb_refl. reflexivity. }
  rewrite E2, E3. reflexivity.
Qed.

(** The options of the sparse coding step are not honoured: with NonNegCoef the serial iteration gives non-negative coefficients for any
    data, the parallel one a negative coefficient. *)
Theorem C49_options_refuted :
  (forall c o k p v, nonneg o = true -> nobnd o = None -> k < nK c -> p < ksize c ZY -> (0 <= s_cbpdn c o v (K ZY k p))%R) /\
  exists c o m, nonneg o = true /\ nobnd o = None /\ 0 < nK c /\ 0 < ksize c ZY /\ (vars (step_0 c (plain c) m) (K ZY 0 0) < 0)%R.
Proof.
  split.
  - intros c o k p v Hn Hb Hk Hp. unfold s_cbpdn, whole. cbv zeta.
    set (v1 := if eqb (xrlx c) 1 then _ else _).
    assert (Own : forall i, i < nK c -> Forall (own_stmt (owner c) i) (s_ystep c o i)).
    { intros i Hi. unfold s_ystep. rewrite Hn, Hb. cbn [app]. repeat constructor; apply kset_own; try assumption; intros w w' H;
        rewrite ?(kv_agree c i w w') by assumption; reflexivity. }
    rewrite (do_seq_at ploc_eqb ploc_eqb_spec (owner c) (nK c) (owner_lt c)) by (apply ustep_own).
    cbn [owner]. replace (k <? nK c) with true by (symmetry; apply Nat.ltb_lt; exact Hk).
    unfold cbpdn_ustep, do_prog. cbn [fold_left]. unfold do_stmt at 1. rewrite in_kset. cbn [karr_eqb andb].
    rewrite (do_seq_at ploc_eqb ploc_eqb_spec (owner c) (nK c) (owner_lt c) _ _ _ Own).
    cbn [owner]. replace (k <? nK c) with true by (symmetry; apply Nat.ltb_lt; exact Hk).
    unfold s_ystep. rewrite Hn, Hb. unfold do_prog. cbn [app fold_left]. unfold do_stmt at 1. rewrite in_kset, Nat.eqb_refl.
    replace (p <? ksize c ZY) with true by (symmetry; apply Nat.ltb_lt; exact Hp). cbn [karr_eqb andb rhs kset].
    unfold ltb. destruct (Rlt_dec _ 0); lra.
  - exists (mkP 1 (fun _ => 1) (fun _ => 1) 1 1 1 1 1 (fun _ _ v => v) (fun v => v) (fun _ v => v) (fun _ _ v => v) (fun v => v) (fun v => v) (fun _ v => v)
      (fun _ _ v => v) (fun _ _ v => v) (fun _ _ v => v) (fun _ _ v => v) false).
    exists (mkS (fun _ _ => 1%R) true None (fun v => v) (fun v => v)).
    exists (fun l => match l with V (K ZY 0 0) => (-3)%R | _ => 0%R end).
    split; [reflexivity | ]. split; [reflexivity | ]. split; [apply Nat.lt_0_1 | ]. split; [apply Nat.lt_0_1 | ].
    rewrite zy_value by (try reflexivity; apply Nat.lt_0_1). cbn. unfold prox_l1, kv, sv, vars, sgn, ltb.
    destruct (Rlt_dec 0 _); [lra | ]. destruct (Rlt_dec _ 0); [ | lra].
    rewrite Rabs_left by lra. rewrite Rmax_left by lra. lra.
Qed.
Print Assumptions C49_options_refuted.

(** Masked class: after every iteration the variables of the data fidelity terms satisfy their optimality conditions, for each signal with its
    own mask (the mask common to all signals if there is only one): W^2 Y = rho U, for the sparse coding and the dictionary update. *)
Lemma in_kset_s : forall c a k e a' p, inl ploc_eqb (S a' p) (dst (kset c a k e)) = false.
Proof.
  intros c a k e a' p. apply not_true_iff_false. rewrite (inl_in ploc_eqb ploc_eqb_spec). cbn [dst kset].
  intros H. apply in_map_iff in H. destruct H as (q & E & _). discriminate.
Qed.
Lemma md_opt : forall w r x, (0 < r -> w ^ 2 * (r * x / (w ^ 2 + r)) = r * (x - r * x / (w ^ 2 + r)))%R.
Proof. intros w r x Hr. field. assert (0 <= w ^ 2)%R by apply pow2_ge_0. lra. Qed.
Theorem C49_masked : forall c m k p, k < nK c -> let v := vars (step_0 c (masked c) m) in
  let w := (if wk c then v (K WK k p) else v (S WS p)) in
  ((0 < xrho c)%R -> p < ksize c ZY0 -> p < ksize c ZU0 -> (w ^ 2 * v (K ZY0 k p) = xrho c * v (K ZU0 k p))%R) /\
  ((0 < drho c)%R -> p < ksize c DY1 -> p < ksize c DU1 -> (w ^ 2 * v (K DY1 k p) = drho c * v (K DU1 k p))%R).
Proof.
  intros c m k p Hk. cbv zeta. rewrite step_0_vars. set (u := do_seq _ _ _ _).
  assert (Hk' : k <? nK c = true) by (apply Nat.ltb_lt; exact Hk).
  cbn [rest masked]. unfold md_step_rest, ccmodmd_ystep, ccmodmd_ustep, cbpdnmd_setdict, do_prog. cbn [app fold_left].
  set (u1 := do_stmt ploc_eqb (sset c DY _) u). set (u2 := do_stmt ploc_eqb (kall c DY1 _) u1).
  set (u3 := do_stmt ploc_eqb (kall c DU _) u2). set (u4 := do_stmt ploc_eqb (kall c DU1 _) u3). set (u5 := do_stmt ploc_eqb (sset c DF _) u4).
  assert (A1 : forall a, u1 (K a k p) = u (K a k p)) by (intros a; unfold u1, do_stmt; rewrite in_sset_k; reflexivity).
  assert (A2 : forall a, a <> DY1 -> u2 (K a k p) = u (K a k p)).
  { intros a Ha. unfold u2, do_stmt. rewrite in_kall. destruct (karr_eqb_spec a DY1); [contradiction | ]. apply A1. }
  assert (A3 : forall a, a <> DU -> u3 (K a k p) = u2 (K a k p)).
  { intros a Ha. unfold u3, do_stmt. rewrite in_kall. destruct (karr_eqb_spec a DU); [contradiction | ]. reflexivity. }
  assert (A4 : forall a, a <> DU1 -> u4 (K a k p) = u3 (K a k p)).
  { intros a Ha. unfold u4, do_stmt. rewrite in_kall. destruct (karr_eqb_spec a DU1); [contradiction | ]. reflexivity. }
  assert (A5 : forall a, u5 (K a k p) = u4 (K a k p)) by (intros a; unfold u5, do_stmt; rewrite in_sset_k; reflexivity).
  assert (B1 : u1 (S WS p) = u (S WS p)) by (unfold u1, do_stmt; rewrite in_sset; reflexivity).
  assert (B5 : u5 (S WS p) = u (S WS p)).
  { unfold u5, u4, u3, u2, do_stmt. rewrite in_sset, !in_kall_s. cbn [sarr_eqb andb]. exact B1. }
  rewrite B5, !A5. rewrite !(A4 WK), !(A3 WK), !(A2 WK), !(A4 ZY0), !(A3 ZY0), !(A2 ZY0), !(A4 ZU0), !(A3 ZU0), !(A2 ZU0), (A4 DY1), (A3 DY1) by discriminate.
  split.
  - intros Hr Py Pu.
    assert (Ow : forall a, u (K a k p) = do_prog ploc_eqb (md_step_group c k) (vars m) (K a k p)).
    { intros a. unfold u. rewrite (do_seq_at ploc_eqb ploc_eqb_spec (owner c) (nK c) (owner_lt c)) by (apply masked_ok). cbn [owner]. rewrite Hk'. reflexivity. }
    assert (Os : u (S WS p) = vars m (S WS p)).
    { unfold u. rewrite (do_seq_at ploc_eqb ploc_eqb_spec (owner c) (nK c) (owner_lt c)) by (apply masked_ok). reflexivity. }
    rewrite Os, !Ow. unfold md_step_group, do_prog. rewrite !fold_left_app.
    set (f := fun v s => do_stmt ploc_eqb s v).
    set (y := fold_left f (if neq1 (xrlx c) then _ else _) _).
    assert (Ys : y (S WS p) = vars m (S WS p)).
    { unfold y, cbpdnmd_relax, cbpdnmd_xstep, f. destruct (neq1 (xrlx c)); cbn [fold_left]; unfold do_stmt; rewrite !in_kset_s; reflexivity. }
    set (z := fold_left f (cbpdnmd_ustep c k) (fold_left f (cbpdnmd_ystep c k) y)).
    assert (Z : forall a, a = WK \/ a = ZY0 \/ a = ZU0 ->
      fold_left f (if neq1 (drlx c) then ccmodmd_relax c k else []) (fold_left f (ccmodmd_xstep c k) (fold_left f (ccmodmd_setcoef c k) z)) (K a k p) = z (K a k p)).
    { intros a Ha. unfold ccmodmd_relax, ccmodmd_xstep, ccmodmd_setcoef, f.
      destruct (neq1 (drlx c)); cbn [fold_left]; unfold do_stmt; rewrite !in_kset; destruct Ha as [->|[->| ->]]; reflexivity. }
    rewrite !Z by auto. unfold z, cbpdnmd_ustep, cbpdnmd_ystep, f. cbn [fold_left].
    set (y1 := do_stmt ploc_eqb (kset c ZY0 _ _) y). set (y2 := do_stmt ploc_eqb (kset c ZY _ _) y1).
    set (y3 := do_stmt ploc_eqb (kset c ZU0 _ _) y2). set (y4 := do_stmt ploc_eqb (kset c ZU _ _) y3).
    assert (P : p <? ksize c ZY0 = true) by (apply Nat.ltb_lt; exact Py).
    assert (Q : p <? ksize c ZU0 = true) by (apply Nat.ltb_lt; exact Pu).
    assert (D : forall a, a <> ZY0 -> a <> ZY -> y2 (K a k p) = y (K a k p)).
    { intros a H1 H2. unfold y2, y1, do_stmt. rewrite !in_kset. destruct (karr_eqb_spec a ZY); [contradiction | ].
      destruct (karr_eqb_spec a ZY0); [contradiction | ]. reflexivity. }
    assert (D4 : forall a, a <> ZU -> a <> ZU0 -> y4 (K a k p) = y2 (K a k p)).
    { intros a H1 H2. unfold y4, y3, do_stmt. rewrite !in_kset. destruct (karr_eqb_spec a ZU); [contradiction | ].
      destruct (karr_eqb_spec a ZU0); [contradiction | ]. reflexivity. }
    assert (Ey : y2 (K ZY0 k p) = (xrho c * (kv y DZ k p - kv y SS k p + kv y ZU0 k p) / (mask c y k p ^ 2 + xrho c))%R).
    { unfold y2, y1, do_stmt. rewrite !in_kset, P, Nat.eqb_refl. reflexivity. }
    assert (Eu : y4 (K ZU0 k p) = (y2 (K ZU0 k p) + (y2 (K DZ k p) - y2 (K ZY0 k p) - y2 (K SS k p)))%R).
    { unfold y4, y3, do_stmt at 1 2. rewrite !in_kset, Q, Nat.eqb_refl. reflexivity. }
    rewrite Eu, (D4 WK), (D4 ZY0), !(D WK), (D ZU0), (D DZ), (D SS), Ey by discriminate.
    replace (if wk c then y (K WK k p) else vars m (S WS p)) with (mask c y k p) by (unfold mask, kv, sv; rewrite Ys; reflexivity).
    unfold kv. rewrite (md_opt (mask c y k p) (xrho c) _ Hr). ring.
  - intros Hr Py Pu.
    assert (P : p <? ksize c DY1 = true) by (apply Nat.ltb_lt; exact Py).
    assert (Q : p <? ksize c DU1 = true) by (apply Nat.ltb_lt; exact Pu).
    assert (Ey : u2 (K DY1 k p) = (drho c * (kv u1 DZ k p - kv u1 SS k p + kv u1 DU1 k p) / (mask c u1 k p ^ 2 + drho c))%R).
    { unfold u2, do_stmt. rewrite in_kall, P, Hk'. reflexivity. }
    assert (Eu : u4 (K DU1 k p) = (u3 (K DU1 k p) + (u3 (K DZ k p) - u3 (K DY1 k p) - u3 (K SS k p)))%R).
    { unfold u4, do_stmt. rewrite in_kall, Q, Hk'. reflexivity. }
    rewrite Eu, !(A3 DU1), !(A2 DU1), (A3 DZ), (A2 DZ), (A3 SS), (A2 SS), (A3 DY1), Ey by discriminate.
    replace (if wk c then u (K WK k p) else u (S WS p)) with (mask c u1 k p) by (unfold mask, kv, sv; rewrite A1, B1; reflexivity).
    unfold kv. rewrite !A1. rewrite (md_opt (mask c u1 k p) (drho c) _ Hr). ring.
Qed.
Print Assumptions C49_masked.
Example C49_masked_ex : forall m, let v := vars (step_0 c3 (masked c3) m) in
  (v (S WS 2) ^ 2 * v (K DY1 1 2) = 1 * v (K DU1 1 2))%R /\ (v (S WS 0) ^ 2 * v (K ZY0 0 0) = 1 * v (K ZU0 0 0))%R.
Proof.
  intros m v. split; [apply (C49_masked c3 m 1 2) | apply (C49_masked c3 m 0 0)]; cbn; try lia; lra.
Qed.
