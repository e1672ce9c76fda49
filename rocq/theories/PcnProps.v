(** C31: the dictionary constraint projections returned by cnvrep.getPcn. *)
Require Import List Arith Reals Bool Lia Lra FunctionalExtensionality.
Require Import Verif.RVec Verif.FftModel Verif.FftProofs Verif.PcnModel Verif.PcnSpec Verif.PcnProofs.
Require Verif.CnvrepModel.
Import ListNotations.
Local Open Scope R_scope.

(** The result of the projection, zero-padded to the signal size when it was cropped. *)
Definition projected (d : CnvrepModel.dsize) (nv : nat -> nat) (dN dC : nat) (crp zm : bool) (x : arr) : arr :=
  let r := getPcn d nv dN dC crp zm x in if crp then zpad dN nv r else r.
(** All variants, but for the one which does not pass dimN on when it is not 2. *)
Definition variant_ok (dN : nat) (crp zm : bool) : Prop := crp = true \/ zm = false \/ dN = 2%nat.

Lemma nth_firstn_lt (l : list nat) n i : (i < n)%nat -> nth i (firstn n l) O = nth i l O.
Proof.
  intros H. destruct (Nat.lt_ge_cases i (length l)) as [L|L].
  - rewrite <- (firstn_skipn n l) at 2. symmetry. apply app_nth1. rewrite firstn_length. lia.
  - rewrite !nth_overflow; [reflexivity|lia|rewrite firstn_length; lia].
Qed.
Lemma inside_spat dN s c m i : in_spat dN (bsz (mkBox (firstn dN s) c m)) i = true <-> inside dN s i.
Proof.
  rewrite in_spat_iff. unfold inside, bsz. cbn [bx]. split; intros H ax Ha.
  - specialize (H ax ltac:(apply in_seq; lia)). rewrite nth_firstn_lt in H; assumption.
  - apply in_seq in Ha. rewrite nth_firstn_lt by lia. apply H. lia.
Qed.
Lemma cboxes_support dN m0 m1 i : forall l c0,
  existsb (fun b => in_box dN (dN + 2) b i) (cboxes dN m0 m1 c0 l) = true <->
  (m0 <= i (dN + 2) < m1)%nat /\ exists cpre s cpost, l = cpre ++ s :: cpost /\
    (c0 + list_sum (map nchannels cpre) <= i dN < c0 + list_sum (map nchannels cpre) + nchannels s)%nat /\ inside dN s i.
Proof.
  induction l as [|s l IH]; intros c0; cbn [cboxes existsb].
  - split; [discriminate|]. intros (_ & [|] & ? & ? & E & _); discriminate.
  - rewrite orb_true_iff, IH. unfold in_box, sel. cbn [bc_ bm in_range]. rewrite !andb_true_iff, inside_spat, !Nat.leb_le, !Nat.ltb_lt. fold (nchannels s). split.
    + intros [(H1 & (H2 & H3) & (H4 & H5))|(H1 & cp & s' & cq & -> & H2 & H3)].
      * split; [lia|]. exists [], s, l. split; [reflexivity|]. split; [simpl; lia|exact H1].
      * split; [exact H1|]. exists (s :: cp), s', cq. split; [reflexivity|]. split; [simpl; lia|exact H3].
    + intros (H1 & [|s' cp] & s'' & cq & E & H2 & H3); simpl in E; injection E as -> ->.
      * left. simpl in H2. split; [exact H3|]. split; split; lia.
      * right. split; [exact H1|]. exists cp, s'', cq. split; [reflexivity|]. split; [simpl in H2; lia|exact H3].
Qed.
Lemma mboxes_support dN i : forall bs m0,
  existsb (fun b => in_box dN (dN + 2) b i) (mboxes dN m0 bs) = true <->
  exists pre b post, bs = pre ++ b :: post /\
        (m0 + list_sum (map nfilters pre) <= i (dN + 2) < m0 + list_sum (map nfilters pre) + nfilters b)%nat /\
        match b with
        | CnvrepModel.Blk s => inside dN s i /\ (length s <> dN + 1 -> i dN < nth dN s O)%nat
        | CnvrepModel.CBlk l => exists cpre s cpost, l = cpre ++ s :: cpost /\
            (list_sum (map nchannels cpre) <= i dN < list_sum (map nchannels cpre) + nchannels s)%nat /\ inside dN s i
        end.
Proof.
  induction bs as [|[s|l] bs IH]; intros m0; cbn [mboxes existsb].
  - split; [discriminate|]. intros ([|] & ? & ? & E & _); discriminate.
  - rewrite orb_true_iff, IH. unfold in_box, sel. cbn [bc_ bm in_range]. rewrite !andb_true_iff, inside_spat. split.
    + intros [(H1 & H2 & (H4 & H5))|(pre & b & post & -> & H2 & H3)].
      * exists [], (CnvrepModel.Blk s), bs. split; [reflexivity|]. apply Nat.leb_le in H4. apply Nat.ltb_lt in H5. split; [simpl; lia|].
        split; [exact H1|]. intros N. destruct (Nat.eqb_spec (length s) (dN + 1)); [contradiction|]. simpl in H2. apply Nat.ltb_lt in H2. exact H2.
      * exists (CnvrepModel.Blk s :: pre), b, post. split; [reflexivity|]. split; [simpl; lia|exact H3].
    + intros ([|s' pre] & b & post & E & H2 & H3); simpl in E; injection E as <- ->.
      * left. destruct H3 as [H3 H4]. simpl in H2. split; [exact H3|]. rewrite Nat.leb_le, Nat.ltb_lt. split; [|lia].
        destruct (Nat.eqb_spec (length s) (dN + 1)); [reflexivity|]. simpl. apply Nat.ltb_lt. apply H4. assumption.
      * right. exists pre, b, post. split; [reflexivity|]. split; [simpl in H2; lia|exact H3].
  - rewrite existsb_app, orb_true_iff, IH, cboxes_support. split.
    + intros [(H1 & H2)|(pre & b & post & -> & H2 & H3)].
      * exists [], (CnvrepModel.CBlk l), bs. split; [reflexivity|]. split; [simpl; lia|exact H2].
      * exists (CnvrepModel.CBlk l :: pre), b, post. split; [reflexivity|]. split; [simpl; lia|exact H3].
    + intros ([|s' pre] & b & post & E & H2 & H3); simpl in E; injection E as <- ->.
      * left. simpl in H2. split; [lia|exact H3].
      * right. exists pre, b, post. split; [reflexivity|]. split; [simpl in H2; lia|exact H3].
Qed.
Lemma support_spec d dN i : support d dN i = true <-> in_filter d dN i.
Proof.
  unfold support. destruct d as [s|bs]; cbn [boxes].
  - cbn [existsb]. unfold in_box, sel. cbn [bc_ bm in_range]. rewrite orb_false_r, !andb_true_r. apply inside_spat.
  - apply (mboxes_support dN i bs O).
Qed.
Lemma support_false d dN i : support d dN i = false <-> ~ in_filter d dN i.
Proof. rewrite <- support_spec. destruct (support d dN i); split; congruence. Qed.

Lemma boxes_sizes dN d b : In b (boxes dN d) -> exists s, In s (sizes d) /\ bx b = firstn dN s.
Proof.
  assert (Cb : forall l m0 m1 c0, In b (cboxes dN m0 m1 c0 l) -> exists s, In s l /\ bx b = firstn dN s).
  { induction l as [|s l IH]; intros m0 m1 c0 Hb; [destruct Hb|]. destruct Hb as [<-|Hb]; [exists s; split; [left; reflexivity|reflexivity]|].
    destruct (IH _ _ _ Hb) as (s' & I & E). exists s'. split; [right; exact I|exact E]. }
  destruct d as [s|bs]; cbn [boxes sizes].
  - intros [<-|[]]. exists s. split; [left; reflexivity|reflexivity].
  - generalize O. induction bs as [|[s|l] bs IH]; intros m0 Hb; cbn [mboxes flat_map] in *; [destruct Hb| |].
    + destruct Hb as [<-|Hb]; [exists s; split; [left; reflexivity|reflexivity]|]. destruct (IH _ Hb) as (s' & I & E).
      exists s'. split; [right; exact I|exact E].
    + apply in_app_or in Hb. destruct Hb as [Hb|Hb].
      * destruct (Cb _ _ _ _ Hb) as (s' & I & E). exists s'. split; [apply in_or_app; left; exact I|exact E].
      * destruct (IH _ Hb) as (s' & I & E). exists s'. split; [apply in_or_app; right; exact I|exact E].
Qed.
Lemma fits_boxes dN nv d : fits dN nv d -> forall b, In b (boxes dN d) -> forall i, (i < dN)%nat -> (0 < bsz b i <= nv i)%nat.
Proof. intros F b Hb i Hi. destruct (boxes_sizes dN d b Hb) as (s & I & E). unfold bsz. rewrite E, nth_firstn_lt by exact Hi. apply F; assumption. Qed.
Lemma fits_crop dN nv d x : fits dN nv d -> forall ax, (ax < dN)%nat -> (shp (bcrop dN (dN + 2) d x) ax <= nv ax)%nat.
Proof.
  intros F ax Ha. destruct d as [s|bs]; cbn [bcrop shp]; destruct (Nat.ltb_spec ax dN); try lia.
  - apply F; [left; reflexivity|exact Ha].
  - pose proof (fits_boxes dN nv _ F) as B. induction (boxes dN (CnvrepModel.Blocks bs)) as [|b l IH]; simpl; [lia|].
    pose proof (B b (or_introl eq_refl) ax Ha). specialize (IH (fun c Hc => B c (or_intror Hc))). lia.
Qed.

Lemma getPcn_Pcn d nv dN dC crp zm (y : arr) : variant_ok dN crp zm -> getPcn d nv dN dC crp zm y = Pcn d nv dN dC crp zm y.
Proof. intros [E|[E|E]]; subst; [destruct zm|destruct crp|destruct crp, zm]; reflexivity. Qed.
Lemma s_box d nv dN x : fits dN nv d -> forall b, In b (boxes dN d) -> forall i, (i < dN)%nat -> (0 < bsz b i <= full_shape dN nv x i)%nat.
Proof. intros F b Hb i Hi. unfold full_shape. destruct (Nat.ltb_spec i dN); [|lia]. apply (fits_boxes dN nv d F b Hb i Hi). Qed.

Lemma projected_val d nv dN dC crp zm x i : fits dN nv d -> variant_ok dN crp zm -> within nv dN i ->
  val (projected d nv dN dC crp zm x) i = pn d dN dC (full_shape dN nv x) zm (val x) i.
Proof.
  intros F V W. unfold projected. rewrite getPcn_Pcn by exact V. cbv zeta.
  assert (B : forall b ax, In b (boxes dN d) -> (ax < dN)%nat -> (bsz b ax <= nv ax)%nat) by (intros; apply (fits_boxes dN nv d F); assumption).
  assert (H : in_spat dN (if crp then shp (bcrop dN (dN + 2) d x) else full_shape dN nv x) i = true ->
    val (Pcn d nv dN dC crp zm x) i = pn d dN dC (full_shape dN nv x) zm (val x) i).
  { apply Pcn_val; [exact B|apply fits_crop; exact F]. }
  destruct crp.
  - cbn [zpad val]. replace (shp (Pcn d nv dN dC true zm x)) with (shp (bcrop dN (dN + 2) d x)) by (unfold Pcn; destruct zm; reflexivity).
    destruct (in_spat dN (shp (bcrop dN (dN + 2) d x)) i) eqn:S; [apply H; reflexivity|].
    unfold pn. rewrite (bcrop_outside d dN zm (val x) x i); [unfold Rdiv; ring|auto|exact S].
  - apply H. apply in_spat_iff. intros ax Ha. apply in_seq in Ha. unfold full_shape. destruct (Nat.ltb_spec ax dN); [apply W; lia|lia].
Qed.
Lemma projected_shape d nv dN dC crp zm x : variant_ok dN crp zm -> shp (projected d nv dN dC crp zm x) = full_shape dN nv x.
Proof.
  intros V. unfold projected. rewrite getPcn_Pcn by exact V. cbv zeta. extensionality ax. unfold full_shape, Pcn.
  destruct crp, zm, d; simpl; destruct (Nat.ltb_spec ax dN); reflexivity.
Qed.
Lemma within_full dN nv n x i : (dN <= n)%nat -> within (full_shape dN nv x) n i -> within nv dN i.
Proof. intros L W ax Ha. specialize (W ax ltac:(lia)). unfold full_shape in W. destruct (Nat.ltb_spec ax dN); [exact W|lia]. Qed.
Lemma feasible_feas d dN s zm y : feasible d dN s zm y <-> feas d dN s zm y.
Proof. unfold feasible, feas. split; intros [H1 H2]; (split; [|exact H2]); intros k Hk; apply H1; apply support_false; exact Hk. Qed.
Lemma dot_projected d nv dN dC crp zm x f i : fits dN nv d -> variant_ok dN crp zm -> forall g,
  (forall a b c : R, a = b -> f a c = f b c) ->
  rsum (full_shape dN nv x) (seq 0 (dN + dC)) (fun k => f (val (projected d nv dN dC crp zm x) k) (g k)) i =
  rsum (full_shape dN nv x) (seq 0 (dN + dC)) (fun k => f (pn d dN dC (full_shape dN nv x) zm (val x) k) (g k)) i.
Proof.
  intros F V g Hf. apply rsum_ext_in. intros k H1 _. apply Hf. apply projected_val; [exact F|exact V|].
  apply (within_full dN nv (dN + dC) x k); [lia|]. intros ax Ha. apply H1. apply in_seq. lia.
Qed.

(** ** Support *)
Theorem C31_support : forall d nv dN dC crp zm x i, fits dN nv d -> variant_ok dN crp zm -> within nv dN i ->
  ~ in_filter d dN i -> val (projected d nv dN dC crp zm x) i = 0.
Proof.
  intros d nv dN dC crp zm x i F V W H. rewrite projected_val by assumption. unfold pn. rewrite pl_support by (apply support_false; exact H).
  unfold Rdiv. ring.
Qed.

(** ** Norm: one, or the filter is zero; and it is one when some feasible filter correlates with the argument. *)
Theorem C31_unit_norm : forall d nv dN dC crp zm x i, fits dN nv d -> variant_ok dN crp zm ->
  let s := full_shape dN nv x in let p := val (projected d nv dN dC crp zm x) in
  (dot s (dN + dC) p p i = 1 \/
   forall k, within s (dN + dC) k -> (forall ax, (dN + dC <= ax)%nat -> k ax = i ax) -> p k = 0) /\
  (forall y, feasible d dN s zm y -> dot s (dN + dC) (val x) y i <> 0 -> dot s (dN + dC) p p i = 1).
Proof.
  intros d nv dN dC crp zm x i F V s p. unfold dot, p, s in *. clear s p.
  rewrite (dot_projected d nv dN dC crp zm x (fun a _ => a * a) i F V (fun _ => 0)) by (intros; subst; reflexivity). set (s := full_shape dN nv x) in *. split.
  - destruct (Req_EM_T (nrm2 d dN dC s zm (val x) i) 0) as [E|E]; [right|left; apply pn_norm; exact E].
    intros k W Hk. rewrite projected_val by (try assumption; (apply (within_full dN nv (dN + dC) x k); [lia|exact W])). fold s.
    apply (pn_zero d dN dC s zm (val x) i E).
    + intros ax Ha. apply in_seq in Ha. apply W. lia.
    + intros ax Ha. apply Hk. rewrite in_seq in Ha. lia.
  - intros y Hy Hd. apply (pn_unit_live d dN dC s zm (s_box d nv dN x F) (val x) y i); [apply feasible_feas; exact Hy|exact Hd].
Qed.

(** ** Zero mean, per filter and channel *)
Theorem C31_zero_mean : forall d nv dN dC crp x i, fits dN nv d -> variant_ok dN crp true ->
  rsum (full_shape dN nv x) (seq 0 dN) (val (projected d nv dN dC crp true x)) i = 0.
Proof.
  intros d nv dN dC crp x i F V. destruct (pn_feas d dN dC (full_shape dN nv x) true (s_box d nv dN x F) (val x)) as [_ H].
  rewrite <- (H eq_refl i). apply rsum_ext_in. intros k H1 _. apply projected_val; [exact F|exact V|].
  intros ax Ha. specialize (H1 ax ltac:(apply in_seq; lia)). unfold full_shape in H1. destruct (Nat.ltb_spec ax dN); [exact H1|lia].
Qed.

(** ** No feasible filter of unit norm is nearer. *)
Theorem C31_nearest : forall d nv dN dC crp zm x y i, fits dN nv d -> variant_ok dN crp zm ->
  let s := full_shape dN nv x in let p := val (projected d nv dN dC crp zm x) in
  feasible d dN s zm y -> dot s (dN + dC) y y i = 1 ->
  dot s (dN + dC) (fun k => val x k - p k) (fun k => val x k - p k) i <= dot s (dN + dC) (fun k => val x k - y k) (fun k => val x k - y k) i.
Proof.
  intros d nv dN dC crp zm x y i F V s p Hy Hu. unfold dot, p, s in *. clear s p.
  rewrite (dot_projected d nv dN dC crp zm x (fun a b => (b - a) * (b - a)) i F V (val x)) by (intros; subst; reflexivity). set (s := full_shape dN nv x) in *.
  apply pn_nearest; [apply (s_box d nv dN x F)|apply feasible_feas; exact Hy|exact Hu].
Qed.

(** ** Idempotence *)
Theorem C31_idempotent : forall d nv dN dC crp zm x i, fits dN nv d -> variant_ok dN crp zm -> within (full_shape dN nv x) (dN + dC) i ->
  let p := projected d nv dN dC crp zm x in val (projected d nv dN dC crp zm p) i = val p i.
Proof.
  intros d nv dN dC crp zm x i F V W p. pose proof (within_full dN nv (dN + dC) x i ltac:(lia) W) as Wn.
  unfold p at 1. rewrite (projected_val d nv dN dC crp zm (projected d nv dN dC crp zm x) i F V Wn).
  assert (S2 : full_shape dN nv (projected d nv dN dC crp zm x) = full_shape dN nv x).
  { extensionality ax. unfold full_shape at 1. rewrite projected_shape by exact V. unfold full_shape. destruct (Nat.ltb ax dN); reflexivity. }
  rewrite S2. unfold p. rewrite (projected_val d nv dN dC crp zm x i F V Wn). set (s := full_shape dN nv x) in *.
  set (q := pn d dN dC s zm (val x)). pose proof (s_box d nv dN x F) as B. fold s in B.
  pose proof (pn_feas d dN dC s zm B (val x)) as Q. fold q in Q.
  assert (E : forall k, within s (dN + dC) k -> pl d dN zm (val (projected d nv dN dC crp zm x)) k = pl d dN zm q k).
  { intros k Wk. apply (pn_ext d dN s zm B).
    - intros j Hj. apply projected_val; [exact F|exact V|]. intros ax Ha. pose proof (proj1 (in_spat_iff _ _ _) Hj ax ltac:(apply in_seq; lia)) as L.
      unfold s, full_shape in L. destruct (Nat.ltb_spec ax dN); [exact L|lia].
    - intros ax Ha. apply Wk. lia. }
  assert (G : pn d dN dC s zm (val (projected d nv dN dC crp zm x)) i = pn d dN dC s zm q i).
  { unfold pn. rewrite (E i W). f_equal. unfold nfac. rewrite (rsum_ext_in s _ _ (fun k => pl d dN zm q k * pl d dN zm q k)); [reflexivity|].
    intros k H1 _. rewrite E; [reflexivity|]. intros ax Ha. apply H1. apply in_seq. lia. }
  rewrite G. apply (pn_fix d dN dC s zm B q i Q).
  - intros ax Ha. apply W. apply in_seq in Ha. lia.
  - destruct (Req_EM_T (nrm2 d dN dC s zm (val x) i) 0) as [E0|E0].
    + right. apply rsum_0. intros k H1 H2. unfold q. rewrite (pn_zero d dN dC s zm (val x) i E0 k H1 H2). ring.
    + left. apply pn_norm. exact E0.
Qed.

(** ** The cropped variants compute the other ones, restricted to the filter support; and Pcn is the same function. *)
Theorem C31_cropped_agrees : forall d nv dN dC zm x i, fits dN nv d -> within nv dN i -> (zm = false \/ dN = 2%nat) ->
  val (zpad dN nv (getPcn d nv dN dC true zm x)) i = val (getPcn d nv dN dC false zm x) i.
Proof.
  intros d nv dN dC zm x i F W V. change (val (projected d nv dN dC true zm x) i = val (projected d nv dN dC false zm x) i).
  rewrite !projected_val; try assumption; [reflexivity|right; exact V|left; reflexivity].
Qed.
Theorem C31_Pcn_agrees : forall d nv dN dC crp zm x, variant_ok dN crp zm -> getPcn d nv dN dC crp zm x = Pcn d nv dN dC crp zm x.
Proof. intros. apply getPcn_Pcn. assumption. Qed.

(** ** The variant with zero mean and without cropping, when dimN is not 2: a single mean is subtracted over the channels, so
    that the channels of a filter do not have zero mean. *)
Theorem C31_zero_mean_dimN_refuted : exists d nv dN dC x i, fits dN nv d /\ dN = 1%nat /\ (forall ax, (dN <= ax)%nat -> (i ax < shp x ax)%nat) /\
  rsum (full_shape dN nv x) (seq 0 dN) (val (getPcn d nv dN dC false true x)) i <> 0.
Proof.
  exists (CnvrepModel.Flat [2; 2; 1]%nat), (fun _ => 2%nat), 1%nat, 1%nat,
    (mkArr (fun ax => if Nat.ltb ax 2 then 2%nat else 1%nat) (fun i => if Nat.eqb (i 1%nat) 0 then 1 else -1)), idx0.
  split; [|split; [reflexivity|split]].
  - intros s [<-|[]] i Hi. destruct i; [simpl; lia|lia].
  - intros ax Ha. unfold idx0. simpl. destruct (Nat.ltb ax 2); lia.
  - set (v := getPcn _ _ _ _ _ _ _).
    assert (V : forall k, (k 0 < 2)%nat -> k 1%nat = 0%nat -> 0 < val v k).
    { intros k Hk0 Hk1. unfold v. cbn [getPcn normalise val]. apply Rmult_lt_0_compat.
      - assert (E : k 0%nat = 0%nat \/ k 0%nat = 1%nat) by lia.
        unfold zeromean, mean, in_box, in_spat, sel, bsz. cbn. destruct E as [E|E]; rewrite E, Hk1; cbn; lra.
      - apply Rinv_0_lt_compat. cbv zeta. match goal with |- context [sqrt ?e] => pose proof (sqrt_pos e) as P; set (w := sqrt e) in * end.
        destruct (Req_EM_T w 0); lra. }
    clearbody v. pose proof (V (upd idx0 0 0) ltac:(cbn; lia) eq_refl). pose proof (V (upd idx0 0 1) ltac:(cbn; lia) eq_refl).
    change (0 + val v (upd idx0 0 0) + val v (upd idx0 0 1) <> 0). apply Rgt_not_eq. lra.
Qed.

(** Two blocks of 2-D filters of different sizes, and an array with a nonzero projection. *)
Example C31_ex : let d := CnvrepModel.Blocks [CnvrepModel.Blk [2; 2; 1]%nat; CnvrepModel.Blk [1; 3; 2]%nat] in
  fits 2 (fun _ => 4%nat) d /\ variant_ok 2 false true /\
  (let x := mkArr (fun ax => if Nat.ltb ax 2 then 4%nat else if Nat.eqb ax 4 then 3%nat else 1%nat) (fun i => INR (i 0%nat)) in
   let y := fun i : index => if Nat.eqb (i 4%nat) 0 then if Nat.ltb (i 1%nat) 1 then if Nat.ltb (i 0%nat) 2 then INR (i 0%nat) - / 2 else 0 else 0 else 0 in
   feasible d 2 (full_shape 2 (fun _ => 4%nat) x) true y /\ dot (full_shape 2 (fun _ => 4%nat) x) 3 (val x) y idx0 <> 0).
Proof.
  cbv zeta. split; [|split; [right; right; reflexivity|split; [split|]]].
  - intros s Hs i Hi. repeat (destruct Hs as [<-|Hs]; [destruct i as [|[|]]; simpl; lia|]). destruct Hs.
  - intros k Hk. destruct (Nat.eqb_spec (k 4%nat) 0) as [E|]; [|reflexivity]. destruct (Nat.ltb_spec (k 1%nat) 1); [|reflexivity].
    destruct (Nat.ltb_spec (k 0%nat) 2); [|reflexivity]. exfalso. apply Hk. exists [], (CnvrepModel.Blk [2; 2; 1]%nat), [CnvrepModel.Blk [1; 3; 2]%nat].
    split; [reflexivity|]. split; [simpl; lia|]. split; [|simpl; lia]. intros [|[|]] Ha; simpl; lia.
  - intros _ k. cbn. destruct (Nat.eqb (k 4%nat) 0); cbn; lra.
  - cbn. apply Rgt_not_eq. lra.
Qed.

Print Assumptions C31_support.
Print Assumptions C31_unit_norm.
Print Assumptions C31_zero_mean.
Print Assumptions C31_nearest.
Print Assumptions C31_idempotent.
Print Assumptions C31_cropped_agrees.
Print Assumptions C31_Pcn_agrees.
Print Assumptions C31_zero_mean_dimN_refuted.
