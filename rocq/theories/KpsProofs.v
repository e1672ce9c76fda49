(** Proofs for C92: Gram-Schmidt, the Eckart-Young theorem, the rearrangement of nkp, block circulant assignment. *)
Require Import List Reals Lra Lia Arith ZArith Bool.
Require Import Verif.RVec Verif.NdIndex Verif.ArrayModel Verif.NucModel Verif.NucSpec Verif.NucProofs Verif.KpsModel Verif.KpsSpec.
Require Verif.AdmmProps.
Import ListNotations.
Local Open Scope R_scope.

(** ** Orthogonal families *)
Definition almost_on (M n : nat) (q : nat -> nat -> R) : Prop :=
  (forall a b, (a < n)%nat -> (b < n)%nat -> a <> b -> dot M (q a) (q b) = 0) /\
  (forall a, (a < n)%nat -> nrm2 M (q a) = 0 \/ nrm2 M (q a) = 1).

Lemma dot_null M q x : nrm2 M q = 0 -> dot M q x = 0.
Proof. intros H. pose proof (cauchy_schwarz_sq M q x) as C. rewrite H, Rmult_0_l in C. nra. Qed.

(** The combination of an orthogonal family and its products. *)
Lemma fam_expand M n q (c : nat -> R) x : almost_on M n q ->
  nrm2 M (vsub x (fun i => sumn n (fun a => c a * q a i))) =
  nrm2 M x - 2 * sumn n (fun a => c a * dot M (q a) x) + sumn n (fun a => c a ^ 2 * nrm2 M (q a)).
Proof.
  intros [H1 H2]. set (p := fun i => sumn n (fun a => c a * q a i)).
  assert (E1 : dot M p x = sumn n (fun a => c a * dot M (q a) x)) by (unfold p; apply dot_sumn_l).
  assert (E2 : dot M p p = sumn n (fun a => c a ^ 2 * nrm2 M (q a))).
  { unfold p at 1. rewrite dot_sumn_l. apply sumn_ext. intros a Ha. rewrite dot_comm. unfold p. rewrite dot_sumn_l.
    rewrite (sumn_ext n _ (fun b => delta a b * (c b * nrm2 M (q b)))).
    - rewrite sumn_delta_l by exact Ha. ring.
    - intros b Hb. unfold delta. destruct (Nat.eqb_spec a b) as [E|E]; [subst b; unfold nrm2; ring|]. rewrite H1 by congruence || exact Hb || exact Ha. ring. }
  rewrite nrm2_sub, (dot_comm M x p), E1. unfold nrm2 at 2. rewrite E2. ring.
Qed.

(** Distance of x to the span of the family. *)
Lemma fam_dist M n q c x : almost_on M n q ->
  nrm2 M x - sumn n (fun a => dot M (q a) x ^ 2) <= nrm2 M (vsub x (fun i => sumn n (fun a => c a * q a i))).
Proof.
  intros H. rewrite (fam_expand M n q c x H).
  enough (K : 0 <= sumn n (fun a => dot M (q a) x ^ 2 - 2 * (c a * dot M (q a) x) + c a ^ 2 * nrm2 M (q a))).
  { rewrite sumn_plus, sumn_minus, sumn_scal in K. lra. }
  apply sumn_nonneg. intros a Ha. destruct (proj2 H a Ha) as [E|E]; rewrite E.
  - rewrite (dot_null M (q a) x E). nra.
  - pose proof (pow2_ge_0 (dot M (q a) x - c a)). nra.
Qed.

Lemma fam_bessel M n q x : almost_on M n q -> sumn n (fun a => dot M (q a) x ^ 2) <= nrm2 M x.
Proof.
  intros H. pose proof (fam_expand M n q (fun a => dot M (q a) x) x H) as E. cbv beta in E.
  pose proof (nrm2_nonneg M (vsub x (fun i => sumn n (fun a => dot M (q a) x * q a i)))) as P. rewrite E in P.
  rewrite (sumn_ext n (fun a => dot M (q a) x * dot M (q a) x) (fun a => dot M (q a) x ^ 2)) in P by (intros; ring).
  rewrite (sumn_ext n (fun a => dot M (q a) x ^ 2 * nrm2 M (q a)) (fun a => dot M (q a) x ^ 2)) in P; [lra|].
  intros a Ha. destruct (proj2 H a Ha) as [Z|Z]; rewrite Z; [rewrite (dot_null M _ x Z); ring|ring].
Qed.

(** Gram-Schmidt. *)
Lemma gram_schmidt M n (x : nat -> nat -> R) : exists q, almost_on M n q /\
  forall y, exists c, forall i, (i < M)%nat -> sumn n (fun k => y k * x k i) = sumn n (fun a => c a * q a i).
Proof.
  induction n as [|n (q & H & G)].
  - exists (fun _ _ => 0). split; [split; intros; lia|]. intros y. exists (fun _ => 0). intros i _. reflexivity.
  - set (p := fun i => sumn n (fun a => dot M (q a) (x n) * q a i)). set (r := vsub (x n) p).
    assert (Or : forall a, (a < n)%nat -> dot M (q a) r = 0).
    { intros a Ha. unfold r. rewrite dot_sub_r. rewrite (dot_comm M (q a) p). unfold p. rewrite dot_sumn_l.
      rewrite (sumn_ext n _ (fun b => delta a b * (dot M (q b) (x n) * nrm2 M (q b)))).
      - rewrite sumn_delta_l by exact Ha. destruct (proj2 H a Ha) as [Z|Z]; rewrite Z; [rewrite (dot_null M _ (x n) Z); ring|ring].
      - intros b Hb. unfold delta. destruct (Nat.eqb_spec a b) as [E|E]; [subst b; unfold nrm2; ring|]. rewrite (proj1 H b a) by congruence || exact Hb || exact Ha. ring. }
    set (s := if Req_EM_T (nrm M r) 0 then 0 else / nrm M r).
    exists (fun a => if Nat.eqb a n then vscal s r else q a). split; [split|].
    + intros a b Ha Hb N. cbv beta. destruct (Nat.eqb_spec a n) as [Ea|Ea]; destruct (Nat.eqb_spec b n) as [Eb|Eb].
      * congruence.
      * rewrite dot_scal_l, dot_comm, Or by lia. ring.
      * rewrite dot_scal_r, Or by lia. ring.
      * apply (proj1 H); lia.
    + intros a Ha. cbv beta. destruct (Nat.eqb_spec a n) as [Ea|Ea]; [|apply (proj2 H); lia].
      rewrite nrm2_scal. unfold s. destruct (Req_EM_T (nrm M r) 0) as [Z|Z]; [left; ring|right].
      rewrite <- nrm_sqr. field. exact Z.
    + intros y. destruct (G y) as [c Hc]. exists (fun a => if Nat.eqb a n then y n * nrm M r else c a + y n * dot M (q a) (x n)).
      intros i Hi. cbn [sumn]. rewrite Hc by exact Hi. rewrite Nat.eqb_refl.
      rewrite (sumn_ext n (fun a => (if Nat.eqb a n then y n * nrm M r else c a + y n * dot M (q a) (x n)) * (if Nat.eqb a n then vscal s r else q a) i)
        (fun a => c a * q a i + y n * (dot M (q a) (x n) * q a i))).
      2:{ intros a Ha. destruct (Nat.eqb_spec a n); [lia|ring]. }
      rewrite sumn_plus, sumn_scal. change (sumn n (fun a => dot M (q a) (x n) * q a i)) with (p i).
      assert (R1 : nrm M r * vscal s r i = r i).
      { unfold vscal, s. destruct (Req_EM_T (nrm M r) 0) as [Z|Z]; [|field; exact Z].
        assert (Z2 : nrm2 M r = 0) by (rewrite <- nrm_sqr, Z; ring).
        rewrite (nrm2_0 M r Z2 i Hi). ring. }
      rewrite Rmult_assoc, R1. unfold r, vsub. ring.
Qed.

(** ** Sums with weights between zero and one *)
Lemma weighted_sum K n (t w : nat -> R) :
  (forall k, (S k < K)%nat -> t (S k) <= t k) -> (forall k, (k < K)%nat -> 0 <= t k) ->
  (forall k, (k < K)%nat -> 0 <= w k <= 1) -> sumn K w <= INR n ->
  sumn K (fun k => t k * w k) <= sumn (Nat.min n K) t.
Proof.
  intros Hd Ht Hw Hs.
  assert (Mono : forall a b, (a <= b)%nat -> (b < K)%nat -> t b <= t a).
  { intros a b L. induction L as [|b L IH]; intros Hb; [lra|]. specialize (Hd b Hb). specialize (IH ltac:(lia)). lra. }
  destruct (le_lt_dec K n) as [L|L].
  - rewrite Nat.min_r by exact L. apply sumn_le. intros k Hk. specialize (Ht k Hk). specialize (Hw k Hk). nra.
  - rewrite Nat.min_l by lia. set (u := t n).
    assert (E : sumn K (fun k => t k * w k) = sumn K (fun k => (t k - u) * w k) + u * sumn K w).
    { rewrite <- sumn_scal, <- sumn_plus. apply sumn_ext. intros. ring. }
    assert (B1 : sumn K (fun k => (t k - u) * w k) <= sumn n (fun k => t k - u)).
    { replace K with (n + (K - n))%nat at 1 by lia. rewrite sumn_split.
      assert (P1 : sumn n (fun k => (t k - u) * w k) <= sumn n (fun k => t k - u)).
      { apply sumn_le. intros k Hk. pose proof (Mono k n ltac:(lia) L). fold u in H. specialize (Hw k ltac:(lia)). nra. }
      assert (P2 : sumn (K - n) (fun k => (t (n + k)%nat - u) * w (n + k)%nat) <= sumn (K - n) (fun _ => 0)).
      { apply sumn_le. intros k Hk. pose proof (Mono n (n + k)%nat ltac:(lia) ltac:(lia)). fold u in H. specialize (Hw (n + k)%nat ltac:(lia)). nra. }
      rewrite sumn_const, Rmult_0_r in P2. lra. }
    rewrite sumn_minus, sumn_const in B1. assert (0 <= u) by (apply Ht; exact L). rewrite E. nra.
Qed.

(** ** Eckart-Young *)
Section EY.
Variables (M N : nat) (U V : nat -> nat -> R) (s : nat -> R).
Let K := Nat.min M N.
Hypothesis HU : forall a b, (a < K)%nat -> (b < K)%nat -> sumn M (fun i => U i a * U i b) = delta a b.
Hypothesis HV : forall a b, (a < K)%nat -> (b < K)%nat -> sumn N (fun j => V a j * V b j) = delta a b.
Hypothesis Hs : forall k, (k < K)%nat -> 0 <= s k.
Hypothesis Hd : forall k, (S k < K)%nat -> s (S k) <= s k.

Lemma fnrm2_comp t : fnrm2 M N (comp M N U V t) = sumn K (fun k => t k ^ 2).
Proof.
  unfold fnrm2. rewrite fdot_comp. fold K. apply sumn_ext. intros k Hk. rewrite (bilin_own M N U V HU HV t k Hk). ring.
Qed.

(** Sum over the columns of the squared products with q. *)
Lemma col_energy t q : sumn N (fun j => dot M q (fun i => comp M N U V t i j) ^ 2) = sumn K (fun k => t k ^ 2 * dot M q (fun i => U i k) ^ 2).
Proof.
  set (c := fun k => t k * dot M q (fun i => U i k)).
  assert (E : forall j, dot M q (fun i => comp M N U V t i j) = sumn K (fun k => c k * V k j)).
  { intros j. unfold c, dot, comp. fold K.
    transitivity (sumn M (fun i => sumn K (fun k => t k * (q i * U i k) * V k j))).
    - apply sumn_ext. intros i _. rewrite <- sumn_scal. apply sumn_ext. intros. ring.
    - rewrite sumn_swap. apply sumn_ext. intros k _. rewrite <- sumn_scal, <- sumn_scal_r. apply sumn_ext. intros. ring. }
  transitivity (dot N (fun j => sumn K (fun k => c k * V k j)) (fun j => sumn K (fun k => c k * V k j))).
  { unfold dot at 2. apply sumn_ext. intros j _. rewrite (E j). ring. }
  rewrite dot_sumn_l. apply sumn_ext. intros a Ha. rewrite dot_comm, dot_sumn_l.
  rewrite (sumn_ext K _ (fun b => delta a b * c b)).
  - rewrite sumn_delta_l by exact Ha. unfold c. ring.
  - intros b Hb. unfold dot. rewrite (HV b a Hb Ha). unfold delta. rewrite (Nat.eqb_sym b a). ring.
Qed.

Lemma fnrm2_cols X : fnrm2 M N X = sumn N (fun j => nrm2 M (fun i => X i j)).
Proof. unfold fnrm2, fdot. apply sumn_swap. Qed.

Lemma ey_lower n (x y : nat -> nat -> R) :
  sumn K (fun k => s k ^ 2) - sumn (Nat.min n K) (fun k => s k ^ 2) <=
  fnrm2 M N (fun i j => comp M N U V s i j - sumn n (fun k => x k i * y k j)).
Proof.
  destruct (gram_schmidt M n x) as (q & Hq & G). set (X := comp M N U V s).
  set (w := fun k => sumn n (fun a => dot M (q a) (fun i => U i k) ^ 2)).
  assert (L1 : fnrm2 M N X - sumn K (fun k => s k ^ 2 * w k) <= fnrm2 M N (fun i j => X i j - sumn n (fun k => x k i * y k j))).
  { rewrite !fnrm2_cols.
    assert (E : sumn K (fun k => s k ^ 2 * w k) = sumn N (fun j => sumn n (fun a => dot M (q a) (fun i => X i j) ^ 2))).
    { rewrite (sumn_swap N n). rewrite (sumn_ext n _ (fun a => sumn K (fun k => s k ^ 2 * dot M (q a) (fun i => U i k) ^ 2))) by (intros; apply col_energy).
      rewrite (sumn_swap n K). apply sumn_ext. intros k _. unfold w. rewrite <- sumn_scal. reflexivity. }
    rewrite E, <- sumn_minus. apply sumn_le. intros j _. destruct (G (fun k => y k j)) as [c Hc].
    eapply Rle_trans; [apply (fam_dist M n q c _ Hq)|]. right. apply nrm2_ext. intros i Hi. unfold vsub. rewrite <- Hc by exact Hi.
    f_equal. apply sumn_ext. intros. ring. }
  assert (L2 : sumn K (fun k => s k ^ 2 * w k) <= sumn (Nat.min n K) (fun k => s k ^ 2)).
  { apply (weighted_sum K n (fun k => s k ^ 2) w).
    - intros k Hk. pose proof (Hd k Hk). pose proof (Hs (S k) Hk). nra.
    - intros. apply pow2_ge_0.
    - intros k Hk. split; [unfold w; apply sumn_nonneg; intros; apply pow2_ge_0|].
      eapply Rle_trans; [apply (fam_bessel M n q _ Hq)|]. right. unfold nrm2, dot. rewrite HU by exact Hk. unfold delta. rewrite Nat.eqb_refl. reflexivity.
    - unfold w. rewrite sumn_swap. rewrite <- (Rmult_1_r (INR n)), <- sumn_const. apply sumn_le. intros a Ha.
      assert (O : almost_on M K (fun k i => U i k)).
      { split; [intros a' b' Ha' Hb' Ne; unfold dot; rewrite HU by assumption; unfold delta; destruct (Nat.eqb_spec a' b'); [contradiction|reflexivity]|].
        intros a' Ha'. right. unfold nrm2, dot. rewrite HU by exact Ha'. unfold delta. rewrite Nat.eqb_refl. reflexivity. }
      pose proof (fam_bessel M K _ (q a) O) as B. rewrite (sumn_ext K _ (fun k => dot M (fun i => U i k) (q a) ^ 2)) by (intros; rewrite dot_comm; reflexivity).
      eapply Rle_trans; [exact B|]. destruct (proj2 Hq a Ha) as [Z|Z]; rewrite Z; lra. }
  rewrite <- fnrm2_comp. fold X. lra.
Qed.

(** The truncated decomposition attains the bound. *)
Lemma ey_value n : fnrm2 M N (fun i j => comp M N U V s i j - sumn (Nat.min n K) (fun k => U i k * (s k * V k j))) =
  sumn K (fun k => s k ^ 2) - sumn (Nat.min n K) (fun k => s k ^ 2).
Proof.
  set (m := Nat.min n K). assert (Hm : (m <= K)%nat) by (unfold m; lia).
  transitivity (fnrm2 M N (comp M N U V (fun k => if Nat.ltb k m then 0 else s k))).
  - unfold fnrm2. apply fdot_ext; intros i j _ _; unfold comp; fold K; replace K with (m + (K - m))%nat by lia; rewrite !sumn_split.
    + rewrite (sumn_ext m (fun k => U i k * ((if Nat.ltb k m then 0 else s k) * V k j)) (fun _ => 0)).
      2:{ intros k Hk. destruct (Nat.ltb_spec k m); [ring|lia]. }
      rewrite sumn_const, Rmult_0_r. rewrite (sumn_ext (K - m) (fun k => U i (m + k)%nat * ((if Nat.ltb (m + k) m then 0 else s (m + k)%nat) * V (m + k)%nat j)) (fun k => U i (m + k)%nat * (s (m + k)%nat * V (m + k)%nat j))); [ring|].
      intros k Hk. destruct (Nat.ltb_spec (m + k) m); [lia|ring].
    + rewrite (sumn_ext m (fun k => U i k * ((if Nat.ltb k m then 0 else s k) * V k j)) (fun _ => 0)).
      2:{ intros k Hk. destruct (Nat.ltb_spec k m); [ring|lia]. }
      rewrite sumn_const, Rmult_0_r. rewrite (sumn_ext (K - m) (fun k => U i (m + k)%nat * ((if Nat.ltb (m + k) m then 0 else s (m + k)%nat) * V (m + k)%nat j)) (fun k => U i (m + k)%nat * (s (m + k)%nat * V (m + k)%nat j))); [ring|].
      intros k Hk. destruct (Nat.ltb_spec (m + k) m); [lia|ring].
  - rewrite fnrm2_comp. replace K with (m + (K - m))%nat by lia. rewrite !sumn_split.
    rewrite (sumn_ext m (fun k => (if Nat.ltb k m then 0 else s k) ^ 2) (fun _ => 0)).
    2:{ intros k Hk. destruct (Nat.ltb_spec k m); [ring|lia]. }
    rewrite sumn_const, Rmult_0_r. rewrite (sumn_ext (K - m) (fun k => (if Nat.ltb (m + k) m then 0 else s (m + k)%nat) ^ 2) (fun k => s (m + k)%nat ^ 2)); [ring|].
    intros k Hk. destruct (Nat.ltb_spec (m + k) m); [lia|reflexivity].
Qed.
End EY.

(** ** The rearrangement of nkp *)
Lemma atilde_none pad A b0 b1 c0 c1 a0 a1 : sshape A = [a0; a1] ->
  (atilde pad A (b0, b1) (c0, c1) = None <->
   ~ (a0 = b0 * c0 /\ a1 = b1 * c1)%nat \/ (b0 <= 1 \/ b1 <= 1 \/ c0 = 0 \/ c1 = 0)%nat).
Proof.
  intros Hs. unfold atilde, subsample_array. rewrite Hs. cbn [nth map2 existsb andb].
  destruct (Nat.eqb_spec a0 (b0 * c0)) as [E0|E0]; cbn [negb orb]; [|split; [intros _; left; tauto|reflexivity]].
  destruct (Nat.eqb_spec a1 (b1 * c1)) as [E1|E1]; cbn [negb orb]; [|split; [intros _; left; tauto|reflexivity]].
  destruct (Nat.leb_spec a0 c0) as [L0|L0]; cbn [orb].
  - split; [intros _; right|reflexivity]. destruct (Nat.eq_dec c0 0); [tauto|]. left. nia.
  - destruct (Nat.leb_spec a1 c1) as [L1|L1]; cbn [orb].
    + split; [intros _; right|reflexivity]. destruct (Nat.eq_dec c1 0); [tauto|]. right. left. nia.
    + split; [discriminate|]. intros [H|H]; [tauto|]. exfalso. nia.
Qed.

Lemma atilde_some pad A b0 b1 c0 c1 a0 a1 st0 st1 At : sshape A = [a0; a1] -> strides A = [st0; st1] ->
  atilde pad A (b0, b1) (c0, c1) = Some At ->
  (0 < b0 /\ 0 < b1 /\ 0 < c0 /\ 0 < c1 /\ a0 = b0 * c0 /\ a1 = b1 * c1)%nat /\
  forall k l i j, (k < b0)%nat -> (l < b1)%nat -> (i < c0)%nat -> (j < c1)%nat ->
    At (l * b0 + k)%nat (j * c0 + i)%nat = sget A [(k * c0 + i)%nat; (l * c1 + j)%nat].
Proof.
  intros Hs Ht H.
  assert (P : (0 < b0 /\ 0 < b1 /\ 0 < c0 /\ 0 < c1 /\ a0 = b0 * c0 /\ a1 = b1 * c1)%nat).
  { assert (Q : ~ (~ (a0 = b0 * c0 /\ a1 = b1 * c1)%nat \/ (b0 <= 1 \/ b1 <= 1 \/ c0 = 0 \/ c1 = 0)%nat)).
    { rewrite <- (atilde_none pad A b0 b1 c0 c1 a0 a1 Hs). rewrite H. discriminate. }
    destruct (Nat.eq_dec a0 (b0 * c0)); destruct (Nat.eq_dec a1 (b1 * c1)); [lia|exfalso; tauto|exfalso; tauto|exfalso; tauto]. }
  split; [exact P|]. destruct P as (Pb0 & Pb1 & Pc0 & Pc1 & E0 & E1). intros k l i j Hk Hl Hi Hj.
  unfold atilde in H. rewrite Hs in H. cbn [nth] in H. rewrite (proj2 (Nat.eqb_eq a0 _) E0), (proj2 (Nat.eqb_eq a1 _) E1) in H. cbn [negb orb] in H.
  destruct (subsample_array R pad A [c0; c1] false) as [y|] eqn:Y; [|discriminate]. apply (f_equal (fun o => match o with Some f => f (l * b0 + k)%nat (j * c0 + i)%nat | None => 0 end)) in H.
  cbv beta iota in H. rewrite <- H. clear H. unfold subsample_array in Y. rewrite Hs in Y. cbn [map2 andb] in Y. rewrite Ht in Y. cbn [map2] in Y.
  destruct (existsb _ _); [discriminate|]. apply (f_equal (fun o => match o with Some f => f | None => y end)) in Y. cbv beta iota in Y. subst y.
  unfold as_mat, reshape, transpose, as_strided, get, shape, sshape. cbn [app rev].
  assert (D0 : (a0 / c0 = b0)%nat) by (rewrite E0; apply Nat.div_mul; lia). assert (D1 : (a1 / c1 = b1)%nat) by (rewrite E1; apply Nat.div_mul; lia).
  rewrite D0, D1.
  assert (Q : ravel [(b0 * b1)%nat; (c0 * c1)%nat] [(l * b0 + k)%nat; (j * c0 + i)%nat] = ravel [b1; b0; c1; c0] [l; k; j; i]) by (cbn [ravel prod]; nia).
  rewrite Q, unravel_ravel by (repeat (apply inb_cons; split; [assumption|]); apply inb_nil).
  unfold sget, addr. cbn [rev app base strides mem offset]. rewrite Ht. cbn [offset]. f_equal. nia.
Qed.

Lemma dm_div (a b n : nat) : (b < n)%nat -> ((a * n + b) / n = a)%nat.
Proof. intros H. rewrite Nat.div_add_l by lia. rewrite Nat.div_small by exact H. lia. Qed.
Lemma dm_mod (a b n : nat) : (b < n)%nat -> ((a * n + b) mod n = b)%nat.
Proof. intros H. rewrite Nat.add_comm, Nat.mod_add by lia. apply Nat.mod_small. exact H. Qed.

Section Tilde.
Variables b0 b1 c0 c1 : nat.
Hypotheses (Pb0 : (0 < b0)%nat) (Pb1 : (0 < b1)%nat) (Pc0 : (0 < c0)%nat) (Pc1 : (0 < c1)%nat).

(** Summing over a matrix with b0 c0 rows and b1 c1 columns, and over its rearrangement. *)
Lemma sum_tilde (F G : nat -> nat -> R) :
  (forall k l i j, (k < b0)%nat -> (l < b1)%nat -> (i < c0)%nat -> (j < c1)%nat -> F (k * c0 + i)%nat (l * c1 + j)%nat = G (l * b0 + k)%nat (j * c0 + i)%nat) ->
  sumn (b0 * c0) (fun p => sumn (b1 * c1) (F p)) = sumn (b0 * b1) (fun r => sumn (c0 * c1) (G r)).
Proof.
  intros H. rewrite (Nat.mul_comm b0 b1), (Nat.mul_comm c0 c1).
  rewrite (AdmmProps.sumn_flat c0 b0) by exact Pc0. rewrite (AdmmProps.sumn_flat b0 b1) by exact Pb0. rewrite (sumn_swap b1 b0).
  apply sumn_ext. intros k Hk.
  transitivity (sumn c0 (fun i => sumn b1 (fun l => sumn c1 (fun j => F (k * c0 + i)%nat (l * c1 + j)%nat)))).
  { apply sumn_ext. intros i _. apply (AdmmProps.sumn_flat c1 b1 _ Pc1). }
  rewrite sumn_swap. apply sumn_ext. intros l Hl. rewrite sumn_swap. rewrite (Nat.mul_comm b1 b0) || idtac.
  rewrite (AdmmProps.sumn_flat c0 c1 _ Pc0). apply sumn_ext. intros j Hj. apply sumn_ext. intros i Hi. apply H; assumption.
Qed.

(** The distance of A to a sum of Kronecker products. *)
Lemma dist_tilde n (X At : nat -> nat -> R) (B C : nat -> nat -> nat -> R) :
  (forall k l i j, (k < b0)%nat -> (l < b1)%nat -> (i < c0)%nat -> (j < c1)%nat -> At (l * b0 + k)%nat (j * c0 + i)%nat = X (k * c0 + i)%nat (l * c1 + j)%nat) ->
  mdist2 (b0 * c0) (b1 * c1) X (fun p q => sumn n (fun t => kron c0 c1 (B t) (C t) p q)) =
  fnrm2 (b0 * b1) (c0 * c1) (fun r s => At r s - sumn n (fun t => B t (r mod b0) (r / b0)%nat * C t (s mod c0) (s / c0)%nat)).
Proof.
  intros H. unfold mdist2, fnrm2, fdot. apply sum_tilde. intros k l i j Hk Hl Hi Hj. rewrite H by assumption.
  rewrite !dm_mod, !dm_div by assumption.
  match goal with |- (_ - ?a) ^ 2 = (_ - ?b) * (_ - ?b) => assert (E : a = b) end.
  { apply sumn_ext. intros t _. unfold kron. rewrite !dm_mod, !dm_div by assumption. reflexivity. }
  rewrite E. ring.
Qed.
End Tilde.

(** ** Block circulant matrices *)
Definition fits (r c : nat) (X : block) : bool :=
  (Nat.eqb (brows X) r || Nat.eqb (brows X) 1) && (Nat.eqb (bcols X) c || Nat.eqb (bcols X) 1).
Definition elem (X : block) (a b : nat) : R := bget X (if Nat.eqb (brows X) 1 then 0 else a)%nat (if Nat.eqb (bcols X) 1 then 0 else b)%nat.

Lemma circ_pos n k m p : (k < n)%nat -> (m < n)%nat -> (p < n)%nat -> (p = (k + m) mod n <-> (p + n - k) mod n = m)%nat.
Proof.
  intros Hk Hm Hp. split; intros H.
  - destruct (le_lt_dec n (k + m)) as [L|L].
    + assert (E : ((k + m) mod n = k + m - n)%nat). { replace (k + m)%nat with (k + m - n + 1 * n)%nat at 1 by lia. rewrite Nat.mod_add by lia. apply Nat.mod_small. lia. }
      rewrite E in H. replace (p + n - k)%nat with m by lia. apply Nat.mod_small. exact Hm.
    + rewrite Nat.mod_small in H by exact L. replace (p + n - k)%nat with (m + 1 * n)%nat by lia. rewrite Nat.mod_add by lia. apply Nat.mod_small. exact Hm.
  - destruct (le_lt_dec k p) as [L|L].
    + replace (p + n - k)%nat with (p - k + 1 * n)%nat in H by lia. rewrite Nat.mod_add, Nat.mod_small in H by lia. rewrite Nat.mod_small; lia.
    + rewrite Nat.mod_small in H by lia. replace (k + m)%nat with (p + 1 * n)%nat by lia. rewrite Nat.mod_add, Nat.mod_small by lia. reflexivity.
Qed.

Lemma in_range r q i : (0 < r)%nat -> (Nat.leb (r * q) i && Nat.ltb i (r * q + r) = true <-> (i / r = q)%nat).
Proof.
  intros Hr. rewrite andb_true_iff, Nat.leb_le, Nat.ltb_lt. split; intros H.
  - symmetry. apply (Nat.div_unique i r q (i - r * q)); lia.
  - subst q. pose proof (Nat.div_mod i r ltac:(lia)). pose proof (Nat.mod_upper_bound i r ltac:(lia)). lia.
Qed.

Section CircProof.
Variable cast : R -> R.
Variables (A : list block) (A0 : block) (r c : nat).
Let n := length A.
Definition inner (k : nat) (acc : option NucModel.mat) (l : nat) : option NucModel.mat :=
  match acc with None => None | Some B => let kl := Nat.modulo (k + l) (length A) in assign_block cast B (r * kl) (c * k) r c (nth l A A0) end.

Lemma inner_none k ls : fold_left (inner k) ls None = None.
Proof. induction ls as [|l ls IH]; [reflexivity|exact IH]. Qed.

Lemma inner_misfit k l m acc : (l < m)%nat -> fits r c (nth l A A0) = false -> fold_left (inner k) (seq 0 m) acc = None.
Proof.
  intros Hl Hf. replace m with (l + S (m - S l))%nat by lia. rewrite seq_app, fold_left_app. cbn [seq fold_left Nat.add].
  assert (E : forall a, inner k a l = None). { intros [B|]; [|reflexivity]. unfold inner, assign_block. fold (fits r c (nth l A A0)). rewrite Hf. reflexivity. }
  rewrite E. apply inner_none.
Qed.

Definition value (i j : nat) : R := cast (elem (nth ((i / r + n - j / c) mod n) A A0) (i mod r) (j mod c)).

Lemma inner_some k m B0 : (k < n)%nat -> (m <= n)%nat -> (forall l, (l < n)%nat -> fits r c (nth l A A0) = true) ->
  exists B, fold_left (inner k) (seq 0 m) (Some B0) = Some B /\
  forall i j, (i < n * r)%nat -> (j < n * c)%nat ->
    B i j = if Nat.eqb (j / c) k && Nat.ltb ((i / r + n - k) mod n) m then value i j else B0 i j.
Proof.
  intros Hk Hm Hf. induction m as [|m IH].
  - exists B0. split; [reflexivity|]. intros i j _ _. rewrite andb_comm. reflexivity.
  - destruct IH as (B & E & HB); [lia|]. rewrite seq_S, fold_left_app, E. cbn [fold_left Nat.add]. unfold inner, assign_block.
    fold (fits r c (nth m A A0)). rewrite Hf by lia. eexists. split; [reflexivity|]. intros i j Hi Hj. cbv beta zeta. fold n.
    assert (Hr : (0 < r)%nat) by nia. assert (Hc : (0 < c)%nat) by nia.
    assert (Hp : (i / r < n)%nat) by (apply Nat.div_lt_upper_bound; lia).
    assert (I1 := in_range r ((k + m) mod n) i Hr). assert (I2 := in_range c k j Hc). assert (I3 := circ_pos n k m (i / r) Hk ltac:(lia) Hp).
    destruct (Nat.leb (r * ((k + m) mod n)) i && Nat.ltb i (r * ((k + m) mod n) + r)) eqn:T1; destruct (Nat.leb (c * k) j && Nat.ltb j (c * k + c)) eqn:T2; cbn [andb].
    + assert (J1 := proj1 I1 eq_refl). assert (J2 := proj1 I2 eq_refl). assert (J3 := proj1 I3 J1). rewrite J3, J2, Nat.eqb_refl. cbn [andb].
      replace (Nat.ltb m (S m)) with true by (symmetry; apply Nat.ltb_lt; lia). unfold value. rewrite J2, J3. unfold elem.
      rewrite <- J1. replace (i - r * (i / r))%nat with (i mod r) by (pose proof (Nat.div_mod i r ltac:(lia)); lia).
      replace (j - c * k)%nat with (j mod c) by (rewrite <- J2; pose proof (Nat.div_mod j c ltac:(lia)); lia). reflexivity.
    + rewrite HB by assumption. replace (Nat.eqb (j / c) k) with false; [reflexivity|]. symmetry. apply Nat.eqb_neq. intros Q. apply I2 in Q. discriminate.
    + rewrite HB by assumption. assert (J2 := proj1 I2 eq_refl). rewrite J2, Nat.eqb_refl. cbn [andb].
      assert (Q : ((i / r + n - k) mod n <> m)%nat). { intros Q. apply I3 in Q. apply I1 in Q. discriminate. }
      replace (Nat.ltb ((i / r + n - k) mod n) (S m)) with (Nat.ltb ((i / r + n - k) mod n) m); [reflexivity|].
      apply eq_true_iff_eq. rewrite !Nat.ltb_lt. lia.
    + rewrite HB by assumption. replace (Nat.eqb (j / c) k) with false; [reflexivity|]. symmetry. apply Nat.eqb_neq. intros Q. apply I2 in Q. discriminate.
Qed.

Definition outer (acc : option NucModel.mat) (k : nat) : option NucModel.mat := fold_left (inner k) (seq 0 (length A)) acc.

Lemma outer_some m : (m <= n)%nat -> (forall l, (l < n)%nat -> fits r c (nth l A A0) = true) ->
  exists B, fold_left outer (seq 0 m) (Some (fun _ _ => 0)) = Some B /\
  forall i j, (i < n * r)%nat -> (j < n * c)%nat -> B i j = if Nat.ltb (j / c) m then value i j else 0.
Proof.
  intros Hm Hf. induction m as [|m IH].
  - eexists. split; [reflexivity|]. reflexivity.
  - destruct IH as (B & E & HB); [lia|]. rewrite seq_S, fold_left_app, E. cbn [fold_left Nat.add].
    destruct (inner_some m n B ltac:(lia) ltac:(lia) Hf) as (B' & E' & HB'). exists B'. split; [exact E'|]. intros i j Hi Hj.
    rewrite HB', HB by assumption.
    replace (Nat.ltb ((i / r + n - m) mod n) n) with true by (symmetry; apply Nat.ltb_lt; apply Nat.mod_upper_bound; lia). rewrite andb_true_r.
    destruct (Nat.eqb_spec (j / c) m) as [Q|Q]; [rewrite Q; replace (Nat.ltb m (S m)) with true by (symmetry; apply Nat.ltb_lt; lia); reflexivity|].
    replace (Nat.ltb (j / c) (S m)) with (Nat.ltb (j / c) m); [reflexivity|]. apply eq_true_iff_eq. rewrite !Nat.ltb_lt. lia.
Qed.
Lemma outer_misfit l : (l < n)%nat -> fits r c (nth l A A0) = false -> fold_left outer (seq 0 n) (Some (fun _ _ => 0)) = None.
Proof.
  intros Hl Hf. destruct n as [|m] eqn:En; [lia|]. rewrite seq_S, fold_left_app. cbn [fold_left]. unfold outer at 1.
  apply (inner_misfit _ l); [fold n; lia|exact Hf].
Qed.
End CircProof.

Lemma block_circulant_unfold cast A0 A : block_circulant cast (A0 :: A) =
  fold_left (outer cast (A0 :: A) A0 (brows A0) (bcols A0)) (seq 0 (length (A0 :: A))) (Some (fun _ _ => 0)).
Proof. reflexivity. Qed.
