(** Complex numbers as pairs of reals, finite sums and roots of unity. *)
Require Import List Arith ZArith Reals Bool Lia Lra Ring Field FunctionalExtensionality.
Require Import Verif.RVec.
Local Open Scope R_scope.

Definition C : Type := (R * R)%type.
Definition c0 : C := (0, 0).
Definition c1 : C := (1, 0).
Definition re (z : C) : R := fst z.
Definition im (z : C) : R := snd z.
Definition ofR (r : R) : C := (r, 0).
Definition cadd (x y : C) : C := (re x + re y, im x + im y).
Definition copp (x : C) : C := (- re x, - im x).
Definition csub (x y : C) : C := cadd x (copp y).
Definition cmul (x y : C) : C := (re x * re y - im x * im y, re x * im y + im x * re y).
Definition conj (x : C) : C := (re x, - im x).
Definition cabs2 (x : C) : R := re x * re x + im x * im x.
Definition cscal (r : R) (x : C) : C := (r * re x, r * im x).
Definition cis (t : R) : C := (cos t, sin t).

Lemma c_eq (x y : C) : re x = re y -> im x = im y -> x = y.
Proof. destruct x, y. simpl. intros -> ->. reflexivity. Qed.
Ltac ceq := apply c_eq; unfold cadd, copp, csub, cmul, conj, cscal, ofR, c0, c1, re, im; simpl.

Lemma C_ring : ring_theory c0 c1 cadd cmul csub copp (@eq C).
Proof. split; intros; try reflexivity; ceq; ring. Qed.
Add Ring Cring : C_ring.

Lemma conj_mul x y : conj (cmul x y) = cmul (conj x) (conj y).
Proof. ceq; ring. Qed.
Lemma conj_add x y : conj (cadd x y) = cadd (conj x) (conj y).
Proof. ceq; ring. Qed.
Lemma conj_conj x : conj (conj x) = x.
Proof. ceq; ring. Qed.
Lemma conj_ofR r : conj (ofR r) = ofR r.
Proof. ceq; ring. Qed.
Lemma cabs2_conj x : cabs2 (conj x) = cabs2 x.
Proof. unfold cabs2, conj, re, im. simpl. ring. Qed.
Lemma cabs2_mul x y : cabs2 (cmul x y) = cabs2 x * cabs2 y.
Proof. unfold cabs2, cmul, re, im. simpl. ring. Qed.
Lemma mul_conj x : cmul x (conj x) = ofR (cabs2 x).
Proof. ceq; unfold cabs2, re, im; ring. Qed.
Lemma cscal_mul r x : cscal r x = cmul (ofR r) x.
Proof. ceq; ring. Qed.
Lemma cabs2_nonneg x : 0 <= cabs2 x.
Proof. unfold cabs2. nra. Qed.
Lemma cabs2_0 x : cabs2 x = 0 -> x = c0.
Proof. unfold cabs2. intros H. apply c_eq; unfold c0; simpl; nra. Qed.
Lemma re_ofR r : re (ofR r) = r. Proof. reflexivity. Qed.

Lemma cis_add a b : cis (a + b) = cmul (cis a) (cis b).
Proof. ceq; [rewrite cos_plus; ring|rewrite sin_plus; ring]. Qed.
Lemma cis_0 : cis 0 = c1.
Proof. unfold cis. rewrite cos_0, sin_0. reflexivity. Qed.
Lemma cis_conj a : conj (cis a) = cis (- a).
Proof. ceq; [rewrite cos_neg; reflexivity|rewrite sin_neg; reflexivity]. Qed.
Lemma cis_2PI : cis (2 * PI) = c1.
Proof. unfold cis. rewrite cos_2PI, sin_2PI. reflexivity. Qed.

(** ** Sums *)
Definition csumn (n : nat) (f : nat -> C) : C := (sumn n (fun i => re (f i)), sumn n (fun i => im (f i))).

Lemma csumn_ext n f g : (forall i, (i < n)%nat -> f i = g i) -> csumn n f = csumn n g.
Proof. intros H. unfold csumn. f_equal; apply sumn_ext; intros i Hi; rewrite (H i Hi); reflexivity. Qed.
Lemma csumn_S n f : csumn (S n) f = cadd (csumn n f) (f n).
Proof. unfold csumn, cadd. simpl. f_equal; ring. Qed.
Lemma csumn_O f : csumn O f = c0.
Proof. reflexivity. Qed.
Lemma csumn_plus n f g : csumn n (fun i => cadd (f i) (g i)) = cadd (csumn n f) (csumn n g).
Proof. unfold csumn, cadd. simpl. rewrite <- !sumn_plus. reflexivity. Qed.
Lemma csumn_scal n c f : csumn n (fun i => cmul c (f i)) = cmul c (csumn n f).
Proof. induction n as [|n IH]; [rewrite !csumn_O; ring|rewrite !csumn_S, IH; ring]. Qed.
Lemma csumn_scal_r n c f : csumn n (fun i => cmul (f i) c) = cmul (csumn n f) c.
Proof. induction n as [|n IH]; [rewrite !csumn_O; ring|rewrite !csumn_S, IH; ring]. Qed.
Lemma csumn_0 n f : (forall i, (i < n)%nat -> f i = c0) -> csumn n f = c0.
Proof. intros H. unfold csumn. rewrite !sumn_0; [reflexivity| |]; intros i Hi; rewrite (H i Hi); reflexivity. Qed.
Lemma csumn_swap n m f : csumn n (fun i => csumn m (fun j => f i j)) = csumn m (fun j => csumn n (fun i => f i j)).
Proof. unfold csumn. simpl. f_equal; apply sumn_swap. Qed.
Lemma csumn_conj n f : conj (csumn n f) = csumn n (fun i => conj (f i)).
Proof. unfold csumn, conj. simpl. rewrite sumn_opp. reflexivity. Qed.
Lemma csumn_ofR n f : csumn n (fun i => ofR (f i)) = ofR (sumn n f).
Proof. unfold csumn, ofR. simpl. f_equal. apply sumn_0. reflexivity. Qed.
Lemma csumn_const n c : csumn n (fun _ => c) = cmul (ofR (INR n)) c.
Proof. unfold csumn. rewrite !sumn_const. ceq; ring. Qed.
Lemma csumn_first n f : csumn (S n) f = cadd (f O) (csumn n (fun i => f (S i))).
Proof. unfold csumn, cadd. rewrite !sumn_first. reflexivity. Qed.
Lemma csumn_delta n k f : (k < n)%nat -> csumn n (fun i => if Nat.eqb i k then f i else c0) = f k.
Proof.
  intros H. unfold csumn.
  rewrite (sumn_ext n (fun i => re (if Nat.eqb i k then f i else c0)) (fun i => if Nat.eqb i k then re (f i) else 0)) by (intros i _; destruct (Nat.eqb i k); reflexivity).
  rewrite (sumn_ext n (fun i => im (if Nat.eqb i k then f i else c0)) (fun i => if Nat.eqb i k then im (f i) else 0)) by (intros i _; destruct (Nat.eqb i k); reflexivity).
  rewrite !sumn_delta by exact H. destruct (f k); reflexivity.
Qed.

(** ** Roots of unity *)
Definition ru (n : nat) (z : Z) : C := cis (2 * PI * IZR z / INR n).

Lemma ru_add n a b : ru n (a + b) = cmul (ru n a) (ru n b).
Proof. unfold ru. rewrite <- cis_add. f_equal. rewrite plus_IZR. unfold Rdiv. ring. Qed.
Lemma ru_0 n : ru n 0 = c1.
Proof. unfold ru. replace (2 * PI * 0 / INR n) with 0 by (unfold Rdiv; ring). apply cis_0. Qed.
Lemma ru_conj n z : conj (ru n z) = ru n (- z).
Proof. unfold ru. rewrite cis_conj, opp_IZR. f_equal. unfold Rdiv. ring. Qed.
Lemma ru_inv n z : cmul (ru n z) (ru n (- z)) = c1.
Proof. rewrite <- ru_add. replace (z + - z)%Z with 0%Z by lia. apply ru_0. Qed.
Lemma ru_n n : (0 < n)%nat -> ru n (Z.of_nat n) = c1.
Proof.
  intros H. unfold ru. rewrite <- INR_IZR_INZ. replace (2 * PI * INR n / INR n) with (2 * PI); [apply cis_2PI|].
  field. apply not_0_INR. lia.
Qed.
Lemma ru_mul_n_nat n (q : nat) : (0 < n)%nat -> ru n (Z.of_nat n * Z.of_nat q) = c1.
Proof.
  intros H. induction q as [|q IH].
  - replace (Z.of_nat n * Z.of_nat 0)%Z with 0%Z by lia. apply ru_0.
  - replace (Z.of_nat n * Z.of_nat (S q))%Z with (Z.of_nat n * Z.of_nat q + Z.of_nat n)%Z by lia. rewrite ru_add, IH, ru_n by exact H. ring.
Qed.
Lemma ru_mul_n n q : (0 < n)%nat -> ru n (Z.of_nat n * q) = c1.
Proof.
  intros H. destruct (Z_le_gt_dec 0 q) as [L|L].
  - replace q with (Z.of_nat (Z.to_nat q)) by lia. apply ru_mul_n_nat. exact H.
  - replace (Z.of_nat n * q)%Z with (- (Z.of_nat n * Z.of_nat (Z.to_nat (- q))))%Z by lia.
    rewrite <- ru_conj, ru_mul_n_nat by exact H. ceq; ring.
Qed.
Lemma ru_mod n a b : (0 < n)%nat -> (a mod Z.of_nat n = b mod Z.of_nat n)%Z -> ru n a = ru n b.
Proof.
  intros H E. rewrite (Z.div_mod a (Z.of_nat n)), (Z.div_mod b (Z.of_nat n)), E by lia. rewrite !ru_add, !ru_mul_n by exact H. reflexivity.
Qed.
Lemma ru_ne1 n z : (0 < z < Z.of_nat n)%Z -> ru n z <> c1.
Proof.
  intros [H1 H2] E. unfold ru, cis, c1 in E. injection E as Ec Es.
  assert (Hn : 0 < INR n) by (apply lt_0_INR; lia).
  assert (Hz : 0 < IZR z) by (apply IZR_lt; lia).
  assert (Hlt : IZR z < INR n) by (rewrite INR_IZR_INZ; apply IZR_lt; exact H2).
  set (t := PI * (IZR z / INR n)).
  assert (Ht : 2 * PI * IZR z / INR n = 2 * t) by (unfold t; field; lra).
  rewrite Ht, cos_2a_sin in Ec.
  assert (S0 : 0 < sin t).
  { pose proof PI_RGT_0. assert (0 < IZR z / INR n) by (apply Rdiv_lt_0_compat; assumption).
    assert (IZR z / INR n < 1) by (apply (Rmult_lt_reg_r (INR n)); [exact Hn|]; unfold Rdiv; rewrite Rmult_assoc, Rinv_l by lra; lra).
    apply sin_gt_0; unfold t; nra. }
  nra.
Qed.
Lemma ru_geom n z : (0 < n)%nat -> ru n z <> c1 -> csumn n (fun j => ru n (Z.of_nat j * z)) = c0.
Proof.
  intros Hn H. set (S := csumn n (fun j => ru n (Z.of_nat j * z))).
  assert (T : forall m, cmul (csub (ru n z) c1) (csumn m (fun j => ru n (Z.of_nat j * z))) = csub (ru n (Z.of_nat m * z)) c1).
  { induction m as [|m IH].
    - rewrite csumn_O. replace (Z.of_nat 0 * z)%Z with 0%Z by lia. rewrite ru_0. ring.
    - rewrite csumn_S. replace (Z.of_nat (Datatypes.S m) * z)%Z with (Z.of_nat m * z + z)%Z by lia. rewrite ru_add.
      transitivity (cadd (cmul (csub (ru n z) c1) (csumn m (fun j => ru n (Z.of_nat j * z)))) (cmul (csub (ru n z) c1) (ru n (Z.of_nat m * z)))); [ring|].
      rewrite IH. ring. }
  specialize (T n). rewrite ru_mul_n in T by exact Hn. fold S in T.
  assert (Q : cabs2 (csub (ru n z) c1) * cabs2 S = 0).
  { rewrite <- cabs2_mul, T. unfold cabs2, csub, c1, cadd, copp, re, im. simpl. ring. }
  destruct (Rmult_integral _ _ Q) as [K|K].
  - apply cabs2_0 in K. exfalso. apply H. replace (ru n z) with (cadd (csub (ru n z) c1) c1) by ring. rewrite K. ring.
  - apply cabs2_0. exact K.
Qed.
(** Orthogonality of the characters. *)
Lemma ru_orth n (a b : nat) : (a < n)%nat -> (b < n)%nat ->
  csumn n (fun k => ru n (Z.of_nat k * (Z.of_nat a - Z.of_nat b))) = if Nat.eqb a b then ofR (INR n) else c0.
Proof.
  intros Ha Hb. destruct (Nat.eqb_spec a b) as [->|N].
  - rewrite (csumn_ext n _ (fun _ => c1)) by (intros k _; replace (Z.of_nat k * (Z.of_nat b - Z.of_nat b))%Z with 0%Z by lia; apply ru_0).
    rewrite csumn_const. ceq; ring.
  - apply ru_geom; [lia|]. destruct (Nat.lt_ge_cases b a) as [L|L].
    + apply ru_ne1. lia.
    + intros E. apply (ru_ne1 n (Z.of_nat b - Z.of_nat a)); [lia|].
      replace (Z.of_nat b - Z.of_nat a)%Z with (- (Z.of_nat a - Z.of_nat b))%Z by lia. rewrite <- ru_conj, E. ceq; ring.
Qed.
