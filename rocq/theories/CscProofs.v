Require Import List Arith ZArith Reals Bool Lia Lra Ring FunctionalExtensionality.
Require Import Verif.RVec Verif.Cplx Verif.FftModel Verif.FftProofs Verif.CscModel Verif.CscSpec.
Import ListNotations.
Local Open Scope R_scope.

(** ** Complex numbers *)
Lemma cinv_r z : z <> c0 -> cmul z (cinv z) = c1.
Proof.
  intros H. assert (P : cabs2 z <> 0) by (intros E; apply H; apply cabs2_0; exact E).
  unfold cinv. rewrite cscal_mul. transitivity (cmul (ofR (/ cabs2 z)) (cmul z (conj z))); [ring|]. rewrite mul_conj.
  ceq; field; exact P.
Qed.
Lemma cdiv_mul x y : y <> c0 -> cmul y (cdiv x y) = x.
Proof. intros H. unfold cdiv. transitivity (cmul x (cmul y (cinv y))); [ring|]. rewrite cinv_r by exact H. ring. Qed.
Lemma ofR_ne r : r <> 0 -> ofR r <> c0.
Proof. intros H E. apply H. exact (f_equal re E). Qed.
Lemma re_add x y : re (cadd x y) = re x + re y. Proof. reflexivity. Qed.
Lemma re_csumn n f : re (csumn n f) = sumn n (fun i => re (f i)). Proof. reflexivity. Qed.
Lemma im_csumn n f : im (csumn n f) = sumn n (fun i => im (f i)). Proof. reflexivity. Qed.
Lemma csumn_sub n f g : csumn n (fun i => csub (f i) (g i)) = csub (csumn n f) (csumn n g).
Proof. induction n as [|n IH]; [rewrite !csumn_O; ring|rewrite !csumn_S, IH; ring]. Qed.
(** Re (conj x * y) *)
Definition cdot (x y : C) : R := re (cmul (conj x) y).
Lemma cdot_add_r x y z : cdot x (cadd y z) = cdot x y + cdot x z.
Proof. unfold cdot, cadd, cmul, conj, re, im. simpl. ring. Qed.
Lemma cabs2_add x y : cabs2 (cadd x y) = cabs2 x + 2 * cdot y x + cabs2 y.
Proof. unfold cabs2, cdot, cadd, cmul, conj, re, im. simpl. ring. Qed.

(** ** One frequency: the normal equations characterise the minimiser. *)
Section freq.
Variables (M K : nat) (A : nat -> nat -> C) (e : nat -> R) (rho : R) (sv z : nat -> C).
Definition app (x : cvec) (c : nat) : C := csumn M (fun m => cmul (A c m) (x m)).
Definition sys (d : nat -> R) (x : cvec) (m : nat) : C :=
  cadd (csumn K (fun c => cmul (conj (A c m)) (app x c))) (cmul (ofR (d m)) (x m)).
Definition rhs (m : nat) : C := cadd (csumn K (fun c => cmul (conj (A c m)) (sv c))) (cmul (ofR rho) (z m)).
Definition fobj (x : cvec) : R :=
  / 2 * sumn K (fun c => cabs2 (csub (app x c) (sv c))) + / 2 * sumn M (fun m => e m * cabs2 (x m)) + rho / 2 * sumn M (fun m => cabs2 (csub (x m) (z m))).

Lemma fobj_split x y : (forall m, (m < M)%nat -> sys (fun m => e m + rho) y m = rhs m) ->
  let h m := csub (x m) (y m) in
  fobj x = fobj y + / 2 * sumn K (fun c => cabs2 (app h c)) + / 2 * sumn M (fun m => (e m + rho) * cabs2 (h m)).
Proof.
  intros H h.
  assert (E1 : sumn K (fun c => cabs2 (csub (app x c) (sv c))) =
     sumn K (fun c => cabs2 (csub (app y c) (sv c))) + 2 * sumn K (fun c => cdot (app h c) (csub (app y c) (sv c))) + sumn K (fun c => cabs2 (app h c))).
  { rewrite <- sumn_scal, <- !sumn_plus. apply sumn_ext. intros c _.
    replace (csub (app x c) (sv c)) with (cadd (csub (app y c) (sv c)) (app h c)).
    - rewrite cabs2_add. reflexivity.
    - assert (Ha : app h c = csub (app x c) (app y c)).
      { unfold app. rewrite <- csumn_sub. apply csumn_ext. intros m _. unfold h. ring. }
      rewrite Ha. ring. }
  assert (E2 : sumn M (fun m => e m * cabs2 (x m)) = sumn M (fun m => e m * cabs2 (y m)) + 2 * sumn M (fun m => cdot (h m) (cmul (ofR (e m)) (y m))) + sumn M (fun m => e m * cabs2 (h m))).
  { rewrite <- sumn_scal, <- !sumn_plus. apply sumn_ext. intros m _.
    replace (x m) with (cadd (y m) (h m)) by (unfold h; ring). rewrite cabs2_add. unfold cdot, cmul, ofR, re, im. simpl. ring. }
  assert (E3 : rho * sumn M (fun m => cabs2 (csub (x m) (z m))) = rho * sumn M (fun m => cabs2 (csub (y m) (z m))) + 2 * sumn M (fun m => cdot (h m) (cmul (ofR rho) (csub (y m) (z m)))) + rho * sumn M (fun m => cabs2 (h m))).
  { rewrite <- !sumn_scal, <- !sumn_plus. apply sumn_ext. intros m _.
    replace (csub (x m) (z m)) with (cadd (csub (y m) (z m)) (h m)) by (unfold h; ring). rewrite cabs2_add. unfold cdot, cmul, ofR, re, im. simpl. ring. }
  assert (E4 : sumn M (fun m => (e m + rho) * cabs2 (h m)) = sumn M (fun m => e m * cabs2 (h m)) + rho * sumn M (fun m => cabs2 (h m))).
  { rewrite <- sumn_scal, <- sumn_plus. apply sumn_ext. intros. ring. }
  assert (Z : sumn K (fun c => cdot (app h c) (csub (app y c) (sv c))) + sumn M (fun m => cdot (h m) (cmul (ofR (e m)) (y m))) + sumn M (fun m => cdot (h m) (cmul (ofR rho) (csub (y m) (z m)))) = 0).
  { assert (T : sumn K (fun c => cdot (app h c) (csub (app y c) (sv c))) = sumn M (fun m => cdot (h m) (csumn K (fun c => cmul (conj (A c m)) (csub (app y c) (sv c)))))).
    { unfold cdot. rewrite <- !re_csumn. f_equal.
      rewrite (csumn_ext K _ (fun c => csumn M (fun m => cmul (conj (h m)) (cmul (conj (A c m)) (csub (app y c) (sv c)))))).
      - rewrite csumn_swap. apply csumn_ext. intros m _. rewrite csumn_scal. reflexivity.
      - intros c _. unfold app at 1. rewrite csumn_conj, <- csumn_scal_r. apply csumn_ext. intros m _. rewrite conj_mul. ring. }
    rewrite T, <- !sumn_plus. apply sumn_0. intros m Hm. rewrite <- !cdot_add_r.
    specialize (H m Hm). unfold sys, rhs in H.
    replace (cadd (cadd _ _) _) with c0; [unfold cdot, cmul, c0, re, im; simpl; ring|].
    rewrite (csumn_ext K (fun c => cmul (conj (A c m)) (csub (app y c) (sv c))) (fun c => csub (cmul (conj (A c m)) (app y c)) (cmul (conj (A c m)) (sv c)))) by (intros; ring).
    rewrite csumn_sub. set (P := csumn K _) in *. set (Q := csumn K (fun c => cmul _ (sv c))) in *.
    replace (ofR (e m + rho)) with (cadd (ofR (e m)) (ofR rho)) in H by (ceq; ring).
    transitivity (csub (cadd P (cmul (cadd (ofR (e m)) (ofR rho)) (y m))) (cadd Q (cmul (ofR rho) (z m)))); [rewrite H|]; ring. }
  unfold fobj. rewrite E1, E2, E4. unfold Rdiv in *. nra.
Qed.

Lemma sys_unique x y : (forall m, (m < M)%nat -> 0 <= e m) -> 0 < rho ->
  (forall m, (m < M)%nat -> sys (fun m => e m + rho) x m = rhs m) -> (forall m, (m < M)%nat -> sys (fun m => e m + rho) y m = rhs m) ->
  forall m, (m < M)%nat -> x m = y m.
Proof.
  intros He Hr Hx Hy m Hm.
  pose proof (fobj_split x y Hy) as P1. pose proof (fobj_split y x Hx) as P2. cbv beta zeta in P1, P2.
  assert (N1 : forall h : nat -> cvec, True) by auto.
  assert (Q : forall x y : cvec, 0 <= sumn K (fun c => cabs2 (app (fun m => csub (x m) (y m)) c))) by (intros; apply sumn_nonneg; intros; apply cabs2_nonneg).
  assert (W : forall x y : cvec, 0 <= sumn M (fun m => (e m + rho) * cabs2 (csub (x m) (y m)))).
  { intros. apply sumn_nonneg. intros i Hi. specialize (He i Hi). apply Rmult_le_pos; [lra|apply cabs2_nonneg]. }
  pose proof (Q x y). pose proof (Q y x). pose proof (W x y). pose proof (W y x).
  assert (Z : sumn M (fun m => (e m + rho) * cabs2 (csub (x m) (y m))) = 0) by lra.
  assert (Z' : (e m + rho) * cabs2 (csub (x m) (y m)) = 0).
  { apply (sumn_nonneg_0 M (fun m => (e m + rho) * cabs2 (csub (x m) (y m)))); [|exact Z|exact Hm].
    intros i Hi. specialize (He i Hi). apply Rmult_le_pos; [lra|apply cabs2_nonneg]. }
  specialize (He m Hm). assert (C0 : cabs2 (csub (x m) (y m)) = 0) by nra. apply cabs2_0 in C0.
  transitivity (cadd (csub (x m) (y m)) (y m)); [ring|]. rewrite C0. ring.
Qed.
End freq.

(** ** The solvers *)
Section solvers.
Variables (M : nat) (d : nat -> R).
Hypothesis Hd : forall m, (m < M)%nat -> 0 < d m.

Fixpoint lsum (P : list cvec) (x : cvec) (m : nat) : C :=
  match P with [] => c0 | ah :: P' => cadd (cmul (conj (ah m)) (inner M ah x)) (lsum P' x m) end.
Definition op (P : list cvec) (x : cvec) (m : nat) : C := cadd (lsum P x m) (cmul (ofR (d m)) (x m)).
Definition solves (P : list cvec) (x b : cvec) : Prop := forall m, (m < M)%nat -> op P x m = b m.

Lemma lsum_app P Q x m : lsum (P ++ Q) x m = cadd (lsum P x m) (lsum Q x m).
Proof. induction P as [|ah P IH]; simpl; [ring|rewrite IH; ring]. Qed.
Lemma inner_lin ah x y t : inner M ah (fun m => csub (x m) (cmul (y m) t)) = csub (inner M ah x) (cmul (inner M ah y) t).
Proof. unfold inner. rewrite <- csumn_scal_r, <- csumn_sub. apply csumn_ext. intros. ring. Qed.
Lemma inner_ext ah x y : (forall m, (m < M)%nat -> x m = y m) -> inner M ah x = inner M ah y.
Proof. intros H. apply csumn_ext. intros m Hm. rewrite (H m Hm). reflexivity. Qed.
Lemma lsum_lin P x y t m : lsum P (fun m => csub (x m) (cmul (y m) t)) m = csub (lsum P x m) (cmul (lsum P y m) t).
Proof. induction P as [|ah P IH]; simpl; [ring|rewrite IH, inner_lin; ring]. Qed.
Lemma lsum_ext P x y : (forall m, (m < M)%nat -> x m = y m) -> forall m, lsum P x m = lsum P y m.
Proof. intros H m. induction P as [|ah P IH]; simpl; [reflexivity|]. rewrite IH, (inner_ext ah x y H). reflexivity. Qed.

Lemma op_pos P x : 0 <= re (csumn M (fun m => cmul (conj (x m)) (op P x m))).
Proof.
  unfold op. rewrite (csumn_ext M _ (fun m => cadd (cmul (conj (x m)) (lsum P x m)) (cmul (conj (x m)) (cmul (ofR (d m)) (x m))))) by (intros; ring).
  rewrite csumn_plus, re_add.
  assert (P1 : 0 <= re (csumn M (fun m => cmul (conj (x m)) (lsum P x m)))).
  { induction P as [|ah P IH]; cbn [lsum].
    - rewrite (csumn_0 M) by (intros; ring). unfold c0, re. simpl. lra.
    - rewrite (csumn_ext M _ (fun m => cadd (cmul (cmul (conj (x m)) (conj (ah m))) (inner M ah x)) (cmul (conj (x m)) (lsum P x m)))) by (intros; ring).
      rewrite csumn_plus, re_add, csumn_scal_r.
      replace (csumn M (fun i => cmul (conj (x i)) (conj (ah i)))) with (conj (inner M ah x)).
      + replace (cmul (conj (inner M ah x)) (inner M ah x)) with (cmul (inner M ah x) (conj (inner M ah x))) by ring. rewrite mul_conj.
        pose proof (cabs2_nonneg (inner M ah x)). rewrite re_ofR. lra.
      + unfold inner. rewrite csumn_conj. apply csumn_ext. intros. rewrite conj_mul. ring. }
  assert (P2 : 0 <= re (csumn M (fun m => cmul (conj (x m)) (cmul (ofR (d m)) (x m))))).
  { rewrite re_csumn. apply sumn_nonneg. intros m Hm. specialize (Hd m Hm).
    replace (re (cmul (conj (x m)) (cmul (ofR (d m)) (x m)))) with (d m * cabs2 (x m)) by (unfold cabs2, cmul, conj, ofR, re, im; simpl; ring).
    apply Rmult_le_pos; [lra|apply cabs2_nonneg]. }
  lra.
Qed.
Lemma delta_ne P ah g : solves P g (fun m => conj (ah m)) -> cadd c1 (inner M ah g) <> c0.
Proof.
  intros H E. pose proof (op_pos P g) as Q.
  rewrite (csumn_ext M _ (fun m => conj (cmul (ah m) (g m)))) in Q by (intros m Hm; rewrite (H m Hm), conj_mul; ring).
  rewrite <- csumn_conj in Q. fold (inner M ah g) in Q. apply (f_equal re) in E. rewrite re_add in E.
  unfold conj, re in Q. unfold c1, c0, re in E. simpl in *. lra.
Qed.
Lemma sm_step P ah g x b : solves P g (fun m => conj (ah m)) -> solves P x b ->
  solves (P ++ [ah]) (sm_update M ah g (cadd c1 (inner M ah g)) x) b.
Proof.
  intros Hg Hx m Hm. pose proof (delta_ne P ah g Hg) as Nd. set (dl := cadd c1 (inner M ah g)) in *.
  set (t := cdiv (inner M ah x) dl).
  assert (Eu : forall k, sm_update M ah g dl x k = csub (x k) (cmul (g k) t)) by (intros k; unfold sm_update, t, cdiv; ring).
  unfold op. rewrite lsum_app. simpl. rewrite Eu.
  rewrite !(lsum_ext P _ (fun k => csub (x k) (cmul (g k) t))), (inner_ext ah _ (fun k => csub (x k) (cmul (g k) t))) by (intros; apply Eu).
  rewrite lsum_lin, inner_lin.
  assert (Ht : cmul dl t = inner M ah x) by (apply cdiv_mul; exact Nd).
  specialize (Hg m Hm). specialize (Hx m Hm). unfold op in Hg, Hx. rewrite <- Hx.
  assert (Ez : csub (cmul (ofR (d m)) (g m)) (csub (conj (ah m)) (lsum P g m)) = c0) by (rewrite <- Hg; ring).
  unfold dl in Ht. rewrite <- Ht.
  set (LG := lsum P g m) in *. set (LX := lsum P x m) in *. set (IG := inner M ah g) in *. set (dg := cmul (ofR (d m)) (g m)) in *.
  assert (Edg : dg = csub (conj (ah m)) LG).
  { transitivity (cadd (csub dg (csub (conj (ah m)) LG)) (csub (conj (ah m)) LG)); [ring|]. rewrite Ez. ring. }
  transitivity (cadd LX (cadd (csub (cmul (ofR (d m)) (x m)) (cmul dg t)) (csub (cmul (conj (ah m)) t) (cmul LG t)))); [unfold dg; ring|].
  rewrite Edg. ring.
Qed.

Fixpoint hok (P : list cvec) (hist : list (cvec * cvec * C)) : Prop :=
  match hist with
  | [] => True
  | (a, g, dl) :: r => solves P g (fun m => conj (a m)) /\ dl = cadd c1 (inner M a g) /\ hok (P ++ [a]) r
  end.
Definition blocks (hist : list (cvec * cvec * C)) : list cvec := map (fun h => fst (fst h)) hist.
Lemma hok_app P h1 h2 : hok P (h1 ++ h2) <-> hok P h1 /\ hok (P ++ blocks h1) h2.
Proof.
  revert P. induction h1 as [|[[a g] dl] h1 IH]; intros P; simpl; [rewrite app_nil_r; tauto|].
  rewrite IH, <- app_assoc. simpl. tauto.
Qed.
Lemma inner_ok hist : forall P x b, hok P hist -> solves P x b -> solves (P ++ blocks hist) (ism_inner M hist x) b.
Proof.
  induction hist as [|[[a g] dl] hist IH]; intros P x b H Hx; simpl; [rewrite app_nil_r; exact Hx|].
  destruct H as (Hg & -> & H). replace (P ++ a :: blocks hist) with ((P ++ [a]) ++ blocks hist) by (rewrite <- app_assoc; reflexivity).
  unfold ism_inner. simpl. apply IH; [exact H|]. apply sm_step; assumption.
Qed.
Lemma start_ok b : solves [] (fun m => cdiv (b m) (ofR (d m))) b.
Proof. intros m Hm. specialize (Hd m Hm). unfold op. simpl. rewrite cdiv_mul; [ring|apply ofR_ne; lra]. Qed.
Lemma loop_ok rest : forall hist alpha beta b, hok [] hist -> solves (blocks hist) beta b ->
  match rest with ah :: _ => solves (blocks hist) alpha (fun m => conj (ah m)) | [] => True end ->
  solves (blocks hist ++ rest) (ism_loop M d hist alpha beta rest) b.
Proof.
  induction rest as [|ah rest IH]; intros hist alpha beta b Hh Hb Ha; simpl; [rewrite app_nil_r; exact Hb|].
  set (h' := hist ++ [(ah, alpha, cadd c1 (inner M ah alpha))]).
  assert (Eb : blocks h' = blocks hist ++ [ah]) by (unfold h', blocks; rewrite map_app; reflexivity).
  assert (Hh' : hok [] h') by (apply hok_app; split; [exact Hh|]; simpl; auto).
  replace (blocks hist ++ ah :: rest) with (blocks h' ++ rest) by (rewrite Eb, <- app_assoc; reflexivity).
  assert (Hb' : solves (blocks h') (sm_update M ah alpha (cadd c1 (inner M ah alpha)) beta) b) by (rewrite Eb; apply sm_step; assumption).
  apply (IH h'); [exact Hh'|exact Hb'|].
  destruct rest as [|ah1 rest]; [exact I|]. apply (inner_ok h' []); [exact Hh'|apply start_ok].
Qed.
Lemma ism_ok K ah b : (0 < K)%nat -> solves (map ah (seq 0 K)) (mdbi_ism M K ah d b) b.
Proof.
  intros HK. unfold mdbi_ism. change (map ah (seq 0 K)) with (blocks [] ++ map ah (seq 0 K)) at 1.
  apply loop_ok; [exact I|apply start_ok|]. destruct K as [|K]; [lia|]. simpl. apply start_ok.
Qed.
Lemma lsum_map K (ah : nat -> cvec) x m : lsum (map ah (seq 0 K)) x m = csumn K (fun c => cmul (conj (ah c m)) (inner M (ah c) x)).
Proof.
  induction K as [|K IH]; [reflexivity|]. rewrite seq_S, map_app, lsum_app, IH, csumn_S. simpl. ring.
Qed.
Lemma ism_sys K ah b m : (0 < K)%nat -> (m < M)%nat -> sys M K ah d (mdbi_ism M K ah d b) m = b m.
Proof. intros HK Hm. rewrite <- (ism_ok K ah b HK m Hm). unfold op, sys. rewrite lsum_map. reflexivity. Qed.

(** One block: the closed form. *)
Lemma sys1 ah x m : sys M 1 (fun _ => ah) d x m = cadd (cmul (conj (ah m)) (inner M ah x)) (cmul (ofR (d m)) (x m)).
Proof. unfold sys, app, inner. rewrite csumn_S, csumn_O. ring. Qed.
Lemma dbd_sys ah b m : (m < M)%nat -> sys M 1 (fun _ => ah) d (dbd_sm M ah d b) m = b m.
Proof.
  intros Hm. rewrite sys1.
  set (g := fun k => cdiv (conj (ah k)) (ofR (d k))).
  pose proof (delta_ne [] ah g (start_ok (fun k => conj (ah k)))) as Nd.
  set (dl := cadd c1 (inner M ah g)) in *.
  set (y := fun k => cdiv (b k) (ofR (d k))).
  assert (Ed : forall k, dbd_sm M ah d b k = sm_update M ah g dl y k).
  { intros k. unfold dbd_sm, sm_update. cbv zeta. fold g. replace (cadd (inner M ah g) c1) with dl by (unfold dl; ring).
    assert (Ei : inner M (fun k0 => cdiv (cdiv (ah k0) (ofR (d k0))) dl) b = cdiv (inner M ah y) dl).
    { unfold inner, cdiv. rewrite <- csumn_scal_r. apply csumn_ext. intros i _. unfold y, cdiv. ring. }
    rewrite Ei. unfold g, y, cdiv. ring. }
  pose proof (sm_step [] ah g y b (start_ok (fun k => conj (ah k))) (start_ok b) m Hm) as H. unfold op in H. simpl in H. fold dl in H.
  rewrite (inner_ext ah _ _ (fun k _ => Ed k)), Ed. rewrite <- H. ring.
Qed.
Lemma dbi_sys ah rho b m : (forall k, (k < M)%nat -> d k = rho) -> (m < M)%nat -> sys M 1 (fun _ => ah) d (dbi_sm M ah rho b) m = b m.
Proof.
  intros E Hm. pose proof (Hd m Hm) as P. rewrite (E m Hm) in P.
  assert (Nr : ofR rho <> c0) by (apply ofR_ne; lra).
  set (I := inner M ah (fun k => conj (ah k))).
  assert (HI : exists q, 0 <= q /\ I = ofR q).
  { exists (sumn M (fun k => cabs2 (ah k))). split; [apply sumn_nonneg; intros; apply cabs2_nonneg|].
    rewrite <- csumn_ofR. apply csumn_ext. intros. apply mul_conj. }
  destruct HI as (q & Hq & HI).
  assert (Nd : cadd I (ofR rho) <> c0) by (rewrite HI; intros F; apply (f_equal re) in F; unfold cadd, ofR, c0, re in F; simpl in F; lra).
  set (cb := inner M (fun k => cdiv (ah k) (cadd I (ofR rho))) b).
  assert (Ecb : cmul (cadd I (ofR rho)) cb = inner M ah b).
  { unfold cb. replace (inner M (fun k => cdiv (ah k) (cadd I (ofR rho))) b) with (cdiv (inner M ah b) (cadd I (ofR rho))).
    - apply cdiv_mul. exact Nd.
    - unfold inner, cdiv. rewrite <- csumn_scal_r. apply csumn_ext. intros. ring. }
  rewrite sys1, (E m Hm).
  assert (Ex : forall k, dbi_sm M ah rho b k = cdiv (csub (b k) (cmul (conj (ah k)) cb)) (ofR rho)) by reflexivity.
  assert (Ei : cmul (ofR rho) (inner M ah (dbi_sm M ah rho b)) = csub (inner M ah b) (cmul I cb)).
  { unfold I, inner at 1. rewrite <- csumn_scal. rewrite <- inner_lin. apply csumn_ext. intros k _. rewrite Ex.
    transitivity (cmul (ah k) (cmul (ofR rho) (cdiv (csub (b k) (cmul (conj (ah k)) cb)) (ofR rho)))); [ring|]. rewrite cdiv_mul by exact Nr. reflexivity. }
  rewrite Ex, cdiv_mul by exact Nr.
  assert (Ei2 : inner M ah (dbi_sm M ah rho b) = cb).
  { apply (f_equal (cmul (cinv (ofR rho)))) in Ei.
    assert (L : forall w, cmul (cinv (ofR rho)) (cmul (ofR rho) w) = w).
    { intros w. transitivity (cmul (cmul (ofR rho) (cinv (ofR rho))) w); [ring|]. rewrite cinv_r by exact Nr. ring. }
    rewrite L in Ei. rewrite Ei, <- Ecb. transitivity (cmul (cinv (ofR rho)) (cmul (ofR rho) cb)); [f_equal; ring|apply L]. }
  rewrite Ei2. ring.
Qed.
End solvers.

(** ** From the frequency domain to the spatial domain *)
Require Import Verif.FftInv.
Lemma total_rsum s axes f : forall p, total s axes f p = rsum s axes f p.
Proof. induction axes as [|a r IH]; intros p; simpl; [reflexivity|]. apply sumn_ext. intros. apply IH. Qed.
Lemma conv_rsum s axes u v p : conv s axes u v p = rsum s axes (fun m => u m * v (cdiff s axes p m)) p.
Proof. unfold conv. rewrite total_rsum. reflexivity. Qed.
Lemma sqn_rsum s axes f p : sqn s axes f p = rsum s axes (fun i => f i * f i) p.
Proof. unfold sqn. apply total_rsum. Qed.

Lemma sys_ext M K A A' d x m : (forall c, (c < K)%nat -> A c = A' c) -> sys M K A d x m = sys M K A' d x m.
Proof. intros H. unfold sys. f_equal. apply csumn_ext. intros c Hc. unfold app. rewrite (H c Hc). reflexivity. Qed.

(** *** The gradient filters *)
Lemma rsum_delta s axes t f : NoDup axes -> (forall ax, In ax axes -> (t ax < s ax)%nat) -> forall idx,
  rsum s axes (fun m => if forallb (fun ax => Nat.eqb (m ax) (t ax)) axes then f m else 0) idx = f (fun ax => if mem ax axes then t ax else idx ax).
Proof.
  induction axes as [|a r IH]; intros ND Ht idx; simpl; [reflexivity|]. inversion ND as [|? ? N1 N2]; subst.
  rewrite (sumn_ext (s a) _ (fun j => if Nat.eqb j (t a) then rsum s r (fun m => if forallb (fun ax => Nat.eqb (m ax) (t ax)) r then f m else 0) (upd idx a j) else 0)).
  - rewrite sumn_delta by (apply Ht; left; reflexivity). rewrite IH by (try assumption; intros; apply Ht; right; assumption).
    f_equal. extensionality ax. unfold upd. change (existsb (Nat.eqb ax) r) with (mem ax r).
    destruct (Nat.eqb_spec ax a) as [->|Na]; simpl; [rewrite (mem_not a r N1)|]; reflexivity.
  - intros j Hj. destruct (Nat.eqb_spec j (t a)) as [->|Nj].
    + apply rsum_ext_in. intros m Hm Ho. rewrite (Ho a N1), upd_same, Nat.eqb_refl. reflexivity.
    + transitivity (rsum s r (fun _ => 0 * 0) (upd idx a j)); [|rewrite (rsum_scal s r 0 (fun _ => 0)); ring].
      apply rsum_ext_in. intros m Hm Ho. rewrite (Ho a N1), upd_same. apply Nat.eqb_neq in Nj. rewrite Nj. simpl. ring.
Qed.
Lemma forallb_t (P : nat -> bool) axes : forallb P axes = true <-> forall ax, In ax axes -> P ax = true.
Proof. apply forallb_forall. Qed.
Lemma forallb_f (P : nat -> bool) axes ax : In ax axes -> P ax = false -> forallb P axes = false.
Proof. intros H E. destruct (forallb P axes) eqn:F; [|reflexivity]. rewrite forallb_t in F. rewrite (F ax H) in E. discriminate. Qed.
Definition unit_at (k : nat) : index := fun ax => if Nat.eqb ax k then 1%nat else O.
Lemma grad_filter_delta axes k m : In k axes ->
  padR (fun _ => 2%nat) axes (grad_filter axes k) m =
  (if forallb (fun ax => Nat.eqb (m ax) O) axes then 1 else 0) - (if forallb (fun ax => Nat.eqb (m ax) (unit_at k ax)) axes then 1 else 0).
Proof.
  intros Hk. unfold padR, inside, grad_filter.
  destruct (forallb (fun ax => Nat.eqb ax k || Nat.eqb (m ax) 0) axes) eqn:E.
  - assert (O : forall ax, In ax axes -> ax <> k -> m ax = O).
    { intros ax Ha Na. rewrite forallb_t in E. specialize (E ax Ha). apply Nat.eqb_neq in Na. rewrite Na in E. simpl in E. apply Nat.eqb_eq. exact E. }
    assert (Hin : forall P, (forall ax, In ax axes -> ax <> k -> P ax (m ax) = true) -> forallb (fun ax => P ax (m ax)) axes = P k (m k)).
    { intros P HP. destruct (P k (m k)) eqn:F; [|apply (forallb_f _ _ k Hk F)]. apply forallb_t. intros ax Ha.
      destruct (Nat.eq_dec ax k) as [->|Na]; [exact F|apply HP; assumption]. }
    rewrite (Hin (fun _ v => Nat.ltb v 2)) by (intros ax Ha Na; rewrite (O ax Ha Na); reflexivity).
    rewrite (Hin (fun _ v => Nat.eqb v 0)) by (intros ax Ha Na; rewrite (O ax Ha Na); reflexivity).
    rewrite (Hin (fun ax v => Nat.eqb v (unit_at k ax))) by (intros ax Ha Na; rewrite (O ax Ha Na); unfold unit_at; apply Nat.eqb_neq in Na; rewrite Na; reflexivity).
    unfold unit_at. rewrite Nat.eqb_refl. destruct (m k) as [|[|j]]; simpl; ring.
  - assert (N : exists ax, In ax axes /\ ax <> k /\ m ax <> O).
    { clear Hk. induction axes as [|a r IH]; [discriminate|]. simpl in E. destruct (Nat.eqb_spec a k) as [->|Na]; simpl in E.
      - destruct (IH E) as (ax & H1 & H2 & H3). exists ax. split; [right; exact H1|auto].
      - destruct (Nat.eqb_spec (m a) 0) as [Z|Z]; simpl in E.
        + destruct (IH E) as (ax & H1 & H2 & H3). exists ax. split; [right; exact H1|auto].
        + exists a. split; [left; reflexivity|auto]. }
    destruct N as (ax & H1 & H2 & H3).
    rewrite (forallb_f (fun ax => Nat.eqb (m ax) 0) axes ax H1) by (apply Nat.eqb_neq; exact H3).
    rewrite (forallb_f (fun ax => Nat.eqb (m ax) (unit_at k ax)) axes ax H1) by (unfold unit_at; apply Nat.eqb_neq in H2; rewrite H2; apply Nat.eqb_neq; exact H3).
    destruct (forallb (fun ax => Nat.ltb (m ax) 2) axes); ring.
Qed.
Lemma grad_conv s axes k x p : NoDup axes -> In k axes -> (forall ax, In ax axes -> (2 <= s ax)%nat) -> inr s axes p ->
  rsum s axes (fun m => padR (fun _ => 2%nat) axes (grad_filter axes k) m * x (cdiff s axes p m)) p = diff s k x p.
Proof.
  intros ND Hk Hs Hp.
  rewrite (rsum_ext s axes _ (fun m => (if forallb (fun ax => Nat.eqb (m ax) ((fun _ => O) ax)) axes then x (cdiff s axes p m) else 0) +
     (-1) * (if forallb (fun ax => Nat.eqb (m ax) (unit_at k ax)) axes then x (cdiff s axes p m) else 0))).
  2:{ intros m. rewrite grad_filter_delta by exact Hk. cbv beta. destruct (forallb _ axes); destruct (forallb (fun ax => Nat.eqb (m ax) (unit_at k ax)) axes); ring. }
  rewrite rsum_plus, rsum_scal.
  rewrite (rsum_delta s axes (fun _ => O) (fun m => x (cdiff s axes p m)) ND) by (intros ax Ha; specialize (Hs ax Ha); lia).
  rewrite (rsum_delta s axes (unit_at k) (fun m => x (cdiff s axes p m)) ND) by (intros ax Ha; specialize (Hs ax Ha); unfold unit_at; destruct (Nat.eqb ax k); lia).
  unfold diff.
  replace (cdiff s axes p (fun ax => if mem ax axes then O else p ax)) with p.
  - replace (cdiff s axes p (fun ax => if mem ax axes then unit_at k ax else p ax)) with (back s k p); [ring|].
    extensionality ax. unfold back, set_at, cdiff, unit_at. destruct (Nat.eqb_spec ax k) as [->|Na].
    + apply mem_in in Hk. rewrite Hk. reflexivity.
    + destruct (mem ax axes) eqn:E; [|reflexivity]. apply mem_in in E. specialize (Hp ax E).
      replace (p ax + s ax - 0)%nat with (p ax + 1 * s ax)%nat by lia. rewrite Nat.mod_add, Nat.mod_small by lia. reflexivity.
  - extensionality ax. unfold cdiff. destruct (mem ax axes) eqn:E; [|reflexivity]. apply mem_in in E. specialize (Hp ax E).
    replace (p ax + s ax - 0)%nat with (p ax + 1 * s ax)%nat by lia. rewrite Nat.mod_add, Nat.mod_small by lia. reflexivity.
Qed.

Section main.
Variables (s dsh : nat -> nat) (r : list nat) (l : nat) (M Cd : nat).
Let axes := r ++ [l].
Variables (D : nat -> nat -> index -> R) (S : nat -> index -> R) (q : quad).
Hypothesis ND : NoDup axes.
Hypothesis Hs : forall ax, In ax axes -> (0 < s ax)%nat.
Hypothesis HC : (0 < Cd)%nat.
Definition quad_ok : Prop :=
  match q with
  | QNone => True
  | QElastic mu => 0 <= mu
  | QGrad mu wg => 0 <= mu /\ (forall m, (m < M)%nat -> 0 <= wg m) /\ forall ax, In ax axes -> (2 <= s ax)%nat
  end.
Hypothesis Hq : quad_ok.
Definition qterm (X : nat -> pos -> R) (base : pos) : R :=
  match q with QNone => 0 | QElastic mu => ridge_term s axes M mu X base | QGrad mu wg => grad_term s axes M mu wg X base end.
Definition ediag (i : index) (m : nat) : R :=
  match q with QNone => 0 | QElastic mu => mu | QGrad mu wg => mu * (wg m * GHGf s axes i) end.

Lemma GHG_cabs2 i : GHGf s axes i = sumn (length axes) (fun k => cabs2 (rfftn s axes (padR (fun _ => 2%nat) axes (grad_filter axes (nth k axes O))) i)).
Proof.
  unfold GHGf. rewrite re_csumn. apply sumn_ext. intros k _. cbv zeta. set (g := rfftn _ _ _ _).
  replace (cmul (conj g) g) with (cmul g (conj g)) by ring. rewrite mul_conj. reflexivity.
Qed.
Lemma ediag_nonneg i m : (m < M)%nat -> 0 <= ediag i m.
Proof.
  intros Hm. unfold ediag. unfold quad_ok in Hq. destruct q as [|mu|mu wg]; [lra|exact Hq|]. destruct Hq as (H1 & H2 & _).
  apply Rmult_le_pos; [exact H1|]. apply Rmult_le_pos; [apply H2; exact Hm|]. rewrite GHG_cabs2. apply sumn_nonneg. intros. apply cabs2_nonneg.
Qed.
Lemma diag_ediag rho i m : diag s axes q rho i m = ediag i m + rho.
Proof. unfold diag, ediag. destruct q; ring. Qed.
Lemma solve_sys rho i b m : 0 < rho -> (m < M)%nat ->
  sys M Cd (fun c k => Df s dsh axes D c k i) (fun k => ediag i k + rho) (solve_at s dsh axes M Cd D q rho i b) m = b m.
Proof.
  intros Hr Hm.
  assert (Hd : forall k, (k < M)%nat -> 0 < ediag i k + rho) by (intros k Hk; pose proof (ediag_nonneg i k Hk); lra).
  unfold solve_at. destruct (Nat.eqb_spec Cd 1) as [->|N].
  - rewrite (sys_ext M 1 _ (fun _ k => Df s dsh axes D 0 k i)) by (intros c Hc; replace c with O by lia; reflexivity).
    destruct q as [|mu|mu wg] eqn:Eq.
    + apply (dbi_sys M _ Hd); [intros; unfold ediag; rewrite Eq; ring|exact Hm].
    + apply (dbi_sys M _ Hd); [intros; unfold ediag; rewrite Eq; ring|exact Hm].
    + replace (diag s axes (QGrad mu wg) rho i) with (fun k => ediag i k + rho) by (extensionality k; rewrite <- Eq; symmetry; apply diag_ediag).
      apply (dbd_sys M _ Hd). exact Hm.
  - replace (diag s axes q rho i) with (fun k => ediag i k + rho) by (extensionality k; symmetry; apply diag_ediag).
    apply (ism_sys M _ Hd); [exact HC|exact Hm].
Qed.

(** Any symmetric right hand side gives a symmetric solution. *)
Lemma ediag_neg i m : inr s axes i -> ediag (neg s axes i) m = ediag i m.
Proof.
  intros Hi. unfold ediag. destruct q as [|mu|mu wg]; try reflexivity. do 2 f_equal. rewrite !GHG_cabs2. apply sumn_ext. intros k _.
  unfold axes. rewrite (rfftn_hermitian s r l _ ND i Hi). apply cabs2_conj.
Qed.
Lemma solution_hermitian rho (x : nat -> index -> C) (sv z : nat -> index -> C) : 0 < rho ->
  (forall c, hermitian_nd s axes (sv c)) -> (forall k, hermitian_nd s axes (z k)) ->
  (forall i m, (m < M)%nat -> sys M Cd (fun c k => Df s dsh axes D c k i) (fun k => ediag i k + rho) (fun k => x k i) m
      = rhs Cd (fun c k => Df s dsh axes D c k i) rho (fun c => sv c i) (fun k => z k i) m) ->
  forall m, (m < M)%nat -> hermitian_nd s axes (x m).
Proof.
  intros Hr Hsv Hz Hx m Hm i Hi.
  apply (sys_unique M Cd (fun c k => Df s dsh axes D c k (neg s axes i)) (ediag (neg s axes i)) rho (fun c => sv c (neg s axes i)) (fun k => z k (neg s axes i))
    (fun k => x k (neg s axes i)) (fun k => conj (x k i))); [intros; apply ediag_nonneg; assumption|exact Hr|intros k Hk; apply Hx; exact Hk| |exact Hm].
  intros k Hk. specialize (Hx i k Hk). apply (f_equal conj) in Hx.
  assert (EA : forall c k, Df s dsh axes D c k (neg s axes i) = conj (Df s dsh axes D c k i)) by (intros; apply rfftn_hermitian; assumption).
  transitivity (conj (sys M Cd (fun c k => Df s dsh axes D c k i) (fun k => ediag i k + rho) (fun k => x k i) k)).
  - unfold sys. rewrite conj_add, csumn_conj, conj_mul, conj_ofR, ediag_neg by exact Hi. f_equal. apply csumn_ext. intros c _.
    rewrite EA, conj_mul. f_equal. unfold app. rewrite csumn_conj. apply csumn_ext. intros j _. rewrite EA, conj_mul. reflexivity.
  - rewrite Hx. unfold rhs. rewrite conj_add, csumn_conj, conj_mul, conj_ofR. rewrite (Hz k i Hi). f_equal. apply csumn_ext. intros c _.
    rewrite EA, conj_mul, (Hsv c i Hi). reflexivity.
Qed.

(** The objective, frequency by frequency. *)
Lemma synth_f X c i : inr s axes i ->
  rfftn s axes (synth s dsh axes M D X c) i = csumn M (fun m => cmul (Df s dsh axes D c m i) (rfftn s axes (X m) i)).
Proof.
  intros Hi. unfold synth, axes. rewrite rfftn_sumn. apply csumn_ext. intros m _.
  etransitivity; [|exact (rfftn_conv s r l (padR dsh axes (D c m)) (X m) i ND Hi)].
  apply (f_equal (fun g => rfftn s (r ++ [l]) g i)). extensionality p. rewrite conv_rsum. reflexivity.
Qed.
Lemma qterm_f X base : prodn s axes * qterm X base = rsum s axes (fun i => / 2 * sumn M (fun m => ediag i m * cabs2 (rfftn s axes (X m) i))) base.
Proof.
  unfold qterm, ediag. unfold quad_ok in Hq. destruct q as [|mu|mu wg].
  - rewrite Rmult_0_r. symmetry. transitivity (rsum s axes (fun _ => 0 * 0) base); [|rewrite (rsum_scal s axes 0 (fun _ => 0)); ring].
    apply rsum_ext. intros i. rewrite (sumn_0 M) by (intros; ring). ring.
  - unfold ridge_term. rewrite rsum_scal, rsum_sumn.
    rewrite (sumn_ext M (fun j => rsum s axes _ base) (fun m => mu * (prodn s axes * sqn s axes (X m) base))).
    + rewrite !sumn_scal. unfold Rdiv. ring.
    + intros m _. rewrite rsum_scal, sqn_rsum. f_equal. apply parseval_real; assumption.
  - destruct Hq as (_ & _ & H2). unfold grad_term. rewrite rsum_scal, rsum_sumn.
    rewrite (sumn_ext M (fun j => rsum s axes _ base) (fun m => mu * (prodn s axes * (wg m * fold_right Rplus 0 (map (fun ax => sqn s axes (diff s ax (X m)) base) axes))))).
    + rewrite !sumn_scal. unfold Rdiv. ring.
    + intros m _.
      assert (Fl : forall (F : nat -> R) L, fold_right Rplus 0 (map F L) = sumn (length L) (fun k => F (nth k L O))).
      { intros F L. induction L as [|a L IH]; [reflexivity|]. cbn [length map fold_right]. rewrite sumn_first, IH. reflexivity. }
      rewrite Fl.
      transitivity (rsum s axes (fun i => mu * wg m * sumn (length axes) (fun k => cabs2 (rfftn s axes (diff s (nth k axes O) (X m)) i))) base).
      * apply rsum_ext_in. intros i Hi _. rewrite GHG_cabs2.
        rewrite (sumn_ext (length axes) (fun k => cabs2 (rfftn s axes (diff s (nth k axes O) (X m)) i))
          (fun k => cabs2 (rfftn s axes (padR (fun _ => 2%nat) axes (grad_filter axes (nth k axes O))) i) * cabs2 (rfftn s axes (X m) i))).
        -- rewrite sumn_scal_r. ring.
        -- intros k Hk. rewrite <- cabs2_mul. f_equal. unfold axes. rewrite <- (rfftn_conv s r l _ (X m) i ND Hi), !rfftn_fftn.
           apply fftn_ext_in. intros p Hp _. f_equal. symmetry. apply grad_conv; [exact ND|apply nth_In; exact Hk|exact H2|exact Hp].
      * rewrite rsum_scal, rsum_sumn.
        rewrite (sumn_ext (length axes) (fun j => rsum s axes _ base) (fun k => prodn s axes * sqn s axes (diff s (nth k axes O) (X m)) base)).
        -- rewrite sumn_scal. ring.
        -- intros k _. rewrite sqn_rsum. apply parseval_real; assumption.
Qed.
Lemma objective_f rho Z X base :
  prodn s axes * (datafit s dsh axes M Cd D S X base + qterm X base + near s axes M rho Z X base) =
  rsum s axes (fun i => fobj M Cd (fun c k => Df s dsh axes D c k i) (ediag i) rho (fun c => Sf s axes S c i) (fun k => rfftn s axes (Z k) i) (fun k => rfftn s axes (X k) i)) base.
Proof.
  unfold fobj. rewrite !rsum_plus, !Rmult_plus_distr_l, qterm_f. f_equal; [f_equal|].
  - unfold datafit. rewrite rsum_scal, rsum_sumn.
    rewrite (sumn_ext Cd (fun j => rsum s axes _ base) (fun c => prodn s axes * sqn s axes (fun p => synth s dsh axes M D X c p - S c p) base)).
    + rewrite sumn_scal. ring.
    + intros c _. rewrite sqn_rsum. unfold axes. rewrite <- parseval_real by assumption. apply rsum_ext_in. intros i Hi _. f_equal.
      rewrite rfftn_sub. fold axes. rewrite synth_f by exact Hi. reflexivity.
  - unfold near. rewrite rsum_scal, rsum_sumn.
    rewrite (sumn_ext M (fun j => rsum s axes _ base) (fun m => prodn s axes * sqn s axes (fun p => X m p - Z m p) base)).
    + rewrite sumn_scal. ring.
    + intros m _. rewrite sqn_rsum. unfold axes. rewrite <- parseval_real by assumption. apply rsum_ext. intros i. f_equal. rewrite rfftn_sub. reflexivity.
Qed.

(** A spectrum which solves the normal equations at every frequency gives the strong minimiser. *)
Lemma strong_min rho Z (xf : nat -> index -> C) X base : 0 < rho ->
  (forall i m, (m < M)%nat -> sys M Cd (fun c k => Df s dsh axes D c k i) (fun k => ediag i k + rho) (fun k => xf k i) m
      = rhs Cd (fun c k => Df s dsh axes D c k i) rho (fun c => Sf s axes S c i) (fun k => rfftn s axes (Z k) i) m) ->
  let x m := irfftn s axes (xf m) in
  datafit s dsh axes M Cd D S x base + qterm x base + near s axes M rho Z x base + near s axes M rho x X base <=
  datafit s dsh axes M Cd D S X base + qterm X base + near s axes M rho Z X base.
Proof.
  intros Hr Hx x.
  assert (Hh : forall m, (m < M)%nat -> hermitian_nd s axes (xf m)).
  { apply (solution_hermitian rho xf (Sf s axes S) (fun k => rfftn s axes (Z k)) Hr); [intros c; apply rfftn_hermitian; exact ND|intros k; apply rfftn_hermitian; exact ND|exact Hx]. }
  assert (Ex : forall m i, (m < M)%nat -> inr s axes i -> rfftn s axes (x m) i = xf m i) by (intros m i Hm Hi; apply rfftn_irfftn; auto).
  assert (P : 0 < prodn s axes) by (apply prodn_pos; exact Hs).
  apply (Rmult_le_reg_l (prodn s axes)); [exact P|].
  rewrite Rmult_plus_distr_l, !objective_f.
  assert (En : prodn s axes * near s axes M rho x X base = rsum s axes (fun i => rho / 2 * sumn M (fun m => cabs2 (csub (rfftn s axes (X m) i) (rfftn s axes (x m) i)))) base).
  { unfold near. rewrite rsum_scal, rsum_sumn.
    rewrite (sumn_ext M (fun j => rsum s axes _ base) (fun m => prodn s axes * sqn s axes (fun p => X m p - x m p) base)).
    - rewrite sumn_scal. ring.
    - intros m _. rewrite sqn_rsum. unfold axes. rewrite <- parseval_real by assumption. apply rsum_ext. intros i. f_equal. rewrite rfftn_sub. reflexivity. }
  rewrite En, <- rsum_plus.
  assert (Le : forall f g : index -> R, (forall i, inr s axes i -> f i <= g i) -> rsum s axes f base <= rsum s axes g base).
  { intros f g H. pose proof (rsum_plus s axes f (fun i => g i - f i) base) as E.
    rewrite (rsum_ext s axes (fun i => f i + (g i - f i)) g) in E by (intros; ring). rewrite E.
    assert (N : 0 <= rsum s axes (fun i => g i - f i) base); [|lra].
    assert (Nn : forall L h p, (forall i, inr s L i -> (forall ax, ~ In ax L -> i ax = p ax) -> 0 <= h i) -> 0 <= rsum s L h p).
    { clear. induction L as [|a L IH]; intros h p H; simpl; [apply H; [intros ? []|reflexivity]|]. apply sumn_nonneg. intros j Hj. apply IH.
      intros i Hi Ho. apply H.
      - intros ax [<-|Ha]; [|apply Hi; exact Ha]. destruct (in_dec Nat.eq_dec a L) as [I|N]; [apply Hi; exact I|]. rewrite Ho, upd_same by exact N. exact Hj.
      - intros ax N. rewrite Ho by (intros I; apply N; right; exact I). apply upd_other. intros ->. apply N. left. reflexivity. }
    apply Nn. intros i Hi _. specialize (H i Hi). lra. }
  apply Le. intros i Hi.
  rewrite (fobj_split M Cd (fun c k => Df s dsh axes D c k i) (ediag i) rho (fun c => Sf s axes S c i) (fun k => rfftn s axes (Z k) i) (fun k => rfftn s axes (X k) i) (fun k => rfftn s axes (x k) i)).
  - cbv beta zeta.
    assert (A1 : 0 <= sumn Cd (fun c => cabs2 (app M (fun c k => Df s dsh axes D c k i) (fun m => csub (rfftn s axes (X m) i) (rfftn s axes (x m) i)) c))) by (apply sumn_nonneg; intros; apply cabs2_nonneg).
    assert (A2 : rho * sumn M (fun m => cabs2 (csub (rfftn s axes (X m) i) (rfftn s axes (x m) i))) <= sumn M (fun m => (ediag i m + rho) * cabs2 (csub (rfftn s axes (X m) i) (rfftn s axes (x m) i)))).
    { rewrite <- sumn_scal. apply sumn_le. intros m Hm. pose proof (ediag_nonneg i m Hm). pose proof (cabs2_nonneg (csub (rfftn s axes (X m) i) (rfftn s axes (x m) i))). nra. }
    unfold Rdiv. lra.
  - intros m Hm. rewrite <- (Hx i m Hm). unfold sys. rewrite (Ex m i Hm Hi). f_equal. apply csumn_ext. intros c _. f_equal. apply csumn_ext. intros k Hk. rewrite (Ex k i Hk Hi). reflexivity.
Qed.
End main.
