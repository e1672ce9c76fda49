Require Import List Arith ZArith Reals Bool Lia Lra Psatz FunctionalExtensionality.
Require Import Verif.RVec Verif.Cplx Verif.FftModel Verif.FftProofs Verif.FftInv Verif.CscModel Verif.CscSpec Verif.CscProofs Verif.CscProps Verif.CscIterModel Verif.CscIterProofs Verif.CscIterProps.
Require Import Verif.AdmmModel Verif.AdmmSpec Verif.AdmmProofs Verif.AdmmConv Verif.AdmmProps Verif.StepsModel Verif.StepsSpec Verif.StepsProofs Verif.ProxModel Verif.ProxProofs Verif.LimitProofs.
Require Import Verif.TvdFourier Verif.InhModel Verif.InhSpec.
Import ListNotations.
Local Open Scope R_scope.

(** ** The window *)
Definition turned (s : nat -> nat) (z : Z) (axes : list nat) (j : index) : index :=
  fun ax => if existsb (Nat.eqb ax) axes then Z.to_nat ((Z.of_nat (j ax) - z) mod Z.of_nat (s ax)) else j ax.
Lemma not_existsb ax L : ~ In ax L -> existsb (Nat.eqb ax) L = false.
Proof. intros H. destruct (existsb (Nat.eqb ax) L) eqn:E; [|reflexivity]. apply existsb_exists in E. destruct E as (y & Hy & Ey). apply Nat.eqb_eq in Ey. subst. contradiction. Qed.
Lemma in_existsb ax L : In ax L -> existsb (Nat.eqb ax) L = true.
Proof. intros H. apply existsb_exists. exists ax. split; [exact H|apply Nat.eqb_refl]. Qed.
Lemma fold_roll s z axes : NoDup axes -> forall w j, fold_left (fun w ax => roll (s ax) z ax w) axes w j = w (turned s z axes j).
Proof.
  induction axes as [|a r IH]; intros ND w j; cbn [fold_left].
  - reflexivity.
  - inversion ND as [|? ? N1 N2]; subst. rewrite IH by exact N2. unfold roll. f_equal. extensionality ax. unfold upd, turned. cbn [existsb].
    destruct (Nat.eqb_spec ax a) as [->|Na]; cbn [orb].
    + rewrite (not_existsb a r N1). reflexivity.
    + reflexivity.
Qed.
Lemma odd_up_odd w : exists r, odd_up w = (2 * r + 1)%nat.
Proof.
  unfold odd_up. destruct (Nat.even w) eqn:E.
  - apply Nat.even_spec in E. destruct E as [r ->]. exists r. lia.
  - assert (O : Nat.odd w = true) by (unfold Nat.odd; rewrite E; reflexivity). apply Nat.odd_spec in O. destruct O as [r ->]. exists r. lia.
Qed.
Lemma shift_val r : (- Z.of_nat (2 * r + 1) / 2 + 1 = - Z.of_nat r)%Z.
Proof. assert (- Z.of_nat (2 * r + 1) / 2 = - Z.of_nat r - 1)%Z; [|lia]. symmetry. apply (Z.div_unique _ 2 _ 1); lia. Qed.
Lemma turned_at n r k : (k < n)%nat -> (2 * r + 1 <= n)%nat -> Z.to_nat ((Z.of_nat k - - Z.of_nat r) mod Z.of_nat n) = if Nat.ltb (r + k) n then (r + k)%nat else (r + k - n)%nat.
Proof.
  intros Hk Hr. destruct (Nat.ltb_spec (r + k) n).
  - rewrite Z.mod_small by lia. lia.
  - rewrite <- (Z.mod_unique (Z.of_nat k - - Z.of_nat r) (Z.of_nat n) 1 (Z.of_nat (r + k - n))) by lia. lia.
Qed.
Lemma turned_lt n r k : (k < n)%nat -> (2 * r + 1 <= n)%nat -> Nat.ltb (if Nat.ltb (r + k) n then (r + k)%nat else (r + k - n)%nat) (2 * r + 1) = within n r k.
Proof. intros Hk Hr. unfold within. destruct (Nat.ltb_spec (r + k) n); destruct (Nat.leb_spec k r), (Nat.leb_spec (n - r) k); cbn [orb]; (apply Nat.ltb_lt || apply Nat.ltb_ge); lia. Qed.
Lemma turned_sample n r k : (k < n)%nat -> (2 * r + 1 <= n)%nat -> within n r k = true -> (if Nat.ltb (r + k) n then (r + k)%nat else (r + k - n)%nat) = sample n r k.
Proof. intros Hk Hr. unfold within, sample. destruct (Nat.ltb_spec (r + k) n); destruct (Nat.leb_spec k r), (Nat.leb_spec (n - r) k); cbn [orb]; intros E; try discriminate; lia. Qed.
Lemma root_pow x d : 0 <= x -> (0 < d)%nat -> 0 <= nonneg_pow x (1 / INR d) /\ nonneg_pow x (1 / INR d) ^ d = x.
Proof.
  intros Hx Hd. unfold nonneg_pow. destruct (Req_EM_T x 0) as [->|N].
  - split; [lra|]. apply pow_i. exact Hd.
  - assert (Px : 0 < x) by lra. assert (Pp : 0 < Rpower x (1 / INR d)) by apply exp_pos. split; [lra|].
    rewrite <- Rpower_pow by exact Pp. rewrite Rpower_mult. assert (0 < INR d) by (apply lt_0_INR; exact Hd).
    replace (1 / INR d * INR d) with 1 by (field; lra). apply Rpower_1. exact Px.
Qed.
Lemma prod_nonneg (f : nat -> R) (L : list nat) : (forall a, In a L -> 0 <= f a) -> 0 <= fold_right Rmult 1 (map f L).
Proof. induction L as [|a L IH]; intros H; simpl; [lra|]. apply Rmult_le_pos; [apply H; left; reflexivity|apply IH; intros; apply H; right; assumption]. Qed.
Lemma windows_weighting s axes w win hl hs : NoDup axes -> axes <> [] -> (forall j, 0 <= win j) -> windows s axes w win = Some (hl, hs) ->
  exists r, odd_up w = (2 * r + 1)%nat /\ weighting s axes r win hl.
Proof.
  intros ND Hne Hwin H. unfold windows in H. destruct (odd_up_odd w) as [r Er]. rewrite Er in H. exists r. split; [exact Er|].
  destruct (forallb (fun ax => Nat.leb (2 * r + 1) (s ax)) axes) eqn:F; [|discriminate]. assert (EH : hl = centred s axes (2 * r + 1) win) by congruence. clear H. subst hl. rewrite forallb_forall in F.
  intros k Hk. unfold centred. rewrite shift_val, fold_roll by exact ND. unfold corner.
  assert (T : forall ax, In ax axes -> turned s (- Z.of_nat r) axes k ax = if Nat.ltb (r + k ax) (s ax) then (r + k ax)%nat else (r + k ax - s ax)%nat).
  { intros ax Ha. unfold turned. rewrite in_existsb by exact Ha. apply turned_at; [apply Hk; exact Ha|apply Nat.leb_le, F, Ha]. }
  assert (E : forallb (fun ax => Nat.ltb (turned s (- Z.of_nat r) axes k ax) (2 * r + 1)) axes = forallb (fun ax => within (s ax) r (k ax)) axes).
  { clear Hne ND. assert (G : forall L, incl L axes -> forallb (fun ax => Nat.ltb (turned s (- Z.of_nat r) axes k ax) (2 * r + 1)) L = forallb (fun ax => within (s ax) r (k ax)) L); [|apply G, incl_refl].
    induction L as [|a L IH]; intros I; [reflexivity|]. cbn [forallb]. rewrite IH by (intros y Hy; apply I; right; exact Hy). f_equal.
    assert (Ia : In a axes) by (apply I; left; reflexivity). rewrite T by exact Ia. apply turned_lt; [apply Hk; exact Ia|apply Nat.leb_le, F, Ia]. }
  rewrite E. destruct (forallb (fun ax => within (s ax) r (k ax)) axes) eqn:W; [|reflexivity]. rewrite forallb_forall in W.
  rewrite (map_ext_in (fun ax => win (turned s (- Z.of_nat r) axes k ax)) (fun ax => win (sample (s ax) r (k ax)))).
  - apply root_pow; [|destruct axes; [contradiction|simpl; lia]]. apply prod_nonneg. intros a _. apply Hwin.
  - intros ax Ha. f_equal. rewrite T by exact Ha. apply turned_sample; [apply Hk; exact Ha|apply Nat.leb_le, F, Ha|apply W, Ha].
Qed.
Lemma weighting_nonneg s axes r win h k : weighting s axes r win h -> (forall ax, In ax axes -> (k ax < s ax)%nat) -> 0 <= h k.
Proof. intros H Hk. specialize (H k Hk). destruct (forallb (fun ax => within (s ax) r (k ax)) axes); [apply H|lra]. Qed.
Lemma pow_inj x y d : (0 < d)%nat -> 0 <= x -> 0 <= y -> x ^ d = y ^ d -> x = y.
Proof.
  intros Hd Hx Hy E. destruct (Rtotal_order x y) as [L|[L|L]]; [exfalso|exact L|exfalso].
  - pose proof (pow_incr x y d ltac:(lra)). destruct d; [lia|]. assert (x ^ S d < y ^ S d); [|lra]. clear - Hx L.
    induction d as [|d IH]; [simpl; lra|]. change (x ^ S (S d)) with (x * x ^ S d). change (y ^ S (S d)) with (y * y ^ S d). pose proof (pow_le x (S d) Hx). nra.
  - destruct d; [lia|]. assert (y ^ S d < x ^ S d); [|lra]. clear - Hy L.
    induction d as [|d IH]; [simpl; lra|]. change (x ^ S (S d)) with (x * x ^ S d). change (y ^ S (S d)) with (y * y ^ S d). pose proof (pow_le y (S d) Hy). nra.
Qed.
(** For a palindromic window the weighting is even. *)
Lemma minus_opp n a b : (a < n)%nat -> (b < n)%nat -> ((b + n - a) mod n = if Nat.eqb ((a + n - b) mod n) 0 then 0 else n - (a + n - b) mod n)%nat.
Proof.
  intros Ha Hb. assert (E : forall x y, (x < n)%nat -> (y < n)%nat -> ((x + n - y) mod n = if Nat.leb y x then x - y else x + n - y)%nat).
  { intros x y Hx Hy. destruct (Nat.leb_spec y x); [symmetry; apply (Nat.mod_unique _ n 1); lia|apply Nat.mod_small; lia]. }
  rewrite !E by assumption. destruct (Nat.leb_spec a b) as [L1|L1]; destruct (Nat.leb_spec b a) as [L2|L2].
  - destruct (Nat.eqb_spec (a - b) 0); lia.
  - destruct (Nat.eqb_spec (a + n - b) 0); lia.
  - destruct (Nat.eqb_spec (a - b) 0); lia.
  - lia.
Qed.
Definition palindrome (r : nat) (win : nat -> R) : Prop := forall j, (j <= 2 * r)%nat -> win j = win (2 * r - j)%nat.
Lemma weighting_even s axes r win h p q : axes <> [] -> (forall ax, In ax axes -> (2 * r + 1 <= s ax)%nat) -> weighting s axes r win h -> palindrome r win ->
  (forall ax, In ax axes -> (p ax < s ax)%nat) -> (forall ax, In ax axes -> (q ax < s ax)%nat) -> h (minus s axes p q) = h (minus s axes q p).
Proof.
  intros Hne Hr H Pw Hp Hq.
  assert (A : forall x y : index, (forall ax, In ax axes -> (x ax < s ax)%nat) -> forall ax, In ax axes -> (minus s axes x y ax < s ax)%nat).
  { intros x y Hx ax Ha. unfold minus. rewrite in_existsb by exact Ha. apply Nat.mod_upper_bound. specialize (Hx ax Ha). lia. }
  pose proof (H _ (A p q Hp)) as H1. pose proof (H _ (A q p Hq)) as H2.
  assert (V : forall ax, In ax axes -> minus s axes q p ax = if Nat.eqb (minus s axes p q ax) 0 then O else (s ax - minus s axes p q ax)%nat).
  { intros ax Ha. unfold minus. rewrite in_existsb by exact Ha. apply minus_opp; [apply Hp|apply Hq]; exact Ha. }
  set (k := minus s axes p q) in *. set (k' := minus s axes q p) in *.
  assert (W : forall ax, In ax axes -> within (s ax) r (k' ax) = within (s ax) r (k ax)).
  { intros ax Ha. rewrite V by exact Ha. pose proof (A p q Hp ax Ha) as B. pose proof (Hr ax Ha). fold k in B. unfold within.
    destruct (Nat.eqb_spec (k ax) 0) as [E|E]; [rewrite E; reflexivity|].
    destruct (Nat.leb_spec (k ax) r), (Nat.leb_spec (s ax - r) (k ax)), (Nat.leb_spec (s ax - k ax) r), (Nat.leb_spec (s ax - r) (s ax - k ax)); try reflexivity; lia. }
  assert (F : forallb (fun ax => within (s ax) r (k' ax)) axes = forallb (fun ax => within (s ax) r (k ax)) axes).
  { revert W. generalize axes. induction axes0 as [|a L IH]; intros W; [reflexivity|]. cbn [forallb]. rewrite (W a) by (left; reflexivity). f_equal. apply IH. intros; apply W; right; assumption. }
  rewrite F in H2. destruct (forallb (fun ax => within (s ax) r (k ax)) axes) eqn:Ft; [|rewrite H1, H2; reflexivity].
  rewrite forallb_forall in Ft. destruct H1 as [N1 E1], H2 as [N2 E2]. apply (pow_inj _ _ (length axes)); [destruct axes; [contradiction|simpl; lia]|exact N1|exact N2|].
  rewrite E1, E2. f_equal. apply map_ext_in. intros ax Ha. pose proof (Ft ax Ha) as G. pose proof (A p q Hp ax Ha) as B. pose proof (Hr ax Ha). fold k in B. rewrite V by exact Ha.
  unfold within in G. unfold sample. destruct (Nat.eqb_spec (k ax) 0) as [E|E]; [rewrite E; reflexivity|].
  destruct (Nat.leb_spec (k ax) r) as [L1|L1]; destruct (Nat.leb_spec (s ax - k ax) r) as [L2|L2]; cbn [orb] in G; try lia.
  - rewrite Pw by lia. f_equal. lia.
  - apply Nat.leb_le in G. rewrite (Pw (r + (s ax - k ax))%nat) by lia. f_equal. lia.
  - apply Nat.leb_le in G. lia.
Qed.

(** ** Convolution as a matrix *)
Require Import Verif.CcmProofs Verif.FftProofs.
Lemma sumn_reflect n c (G : nat -> R) : (c < n)%nat -> sumn n (fun j => G ((c + n - j) mod n)%nat) = sumn n G.
Proof.
  intros Hc. replace n with (S c + (n - S c))%nat at 1 by lia. rewrite sumn_split.
  transitivity (sumn (S c) G + sumn (n - S c) (fun i => G (S c + i)%nat)); [|rewrite <- sumn_split; f_equal; lia]. f_equal.
  - rewrite (sumn_rev (S c) G). apply sumn_ext. intros i Hi. f_equal. symmetry. apply (Nat.mod_unique _ n 1); lia.
  - rewrite (sumn_rev (n - S c) (fun i => G (S c + i)%nat)). apply sumn_ext. intros i Hi. f_equal. rewrite Nat.mod_small; lia.
Qed.
Definition reflect_on (s : nat -> nat) (c : index) (L : list nat) (k : index) : index :=
  fun ax => if existsb (Nat.eqb ax) L then ((c ax + s ax - k ax) mod s ax)%nat else k ax.
Lemma total_reflect s c L : NoDup L -> (forall ax, In ax L -> (c ax < s ax)%nat) -> forall (f : index -> R) p,
  total s L (fun k => f (reflect_on s c L k)) p = total s L f p.
Proof.
  induction L as [|a r IH]; intros ND Hc f p; [reflexivity|]. inversion ND as [|? ? N1 N2]; subst. cbn [total].
  set (G := fun j => total s r f (set_at p a j)). change (sumn (s a) (fun j => total s r f (set_at p a j))) with (sumn (s a) G).
  rewrite <- (sumn_reflect (s a) (c a) G) by (apply Hc; left; reflexivity). apply sumn_ext. intros j Hj.
  set (phi := fun k : index => set_at k a ((c a + s a - k a) mod s a)%nat).
  transitivity (total s r (fun k => (fun k => f (reflect_on s c r k)) (phi k)) (set_at p a j)).
  - f_equal. extensionality k. f_equal. extensionality ax. unfold reflect_on, phi, set_at. cbn [existsb]. destruct (Nat.eqb_spec ax a) as [->|Na]; cbn [orb].
    + rewrite (not_existsb a r N1). reflexivity.
    + reflexivity.
  - rewrite (total_move s r phi (fun k => f (reflect_on s c r k))).
    + refine (eq_trans (IH N2 (fun ax Ha => Hc ax (or_intror Ha)) f _) _). unfold G. f_equal. extensionality ax. unfold phi, set_at. rewrite Nat.eqb_refl. destruct (Nat.eqb_spec ax a); reflexivity.
    + intros b i q Hb. assert (Nb : a <> b) by (intros ->; contradiction). extensionality ax. unfold phi, set_at.
      destruct (Nat.eqb_spec a b); [contradiction|]. destruct (Nat.eqb_spec ax a) as [->|]; [destruct (Nat.eqb_spec a b); [contradiction|reflexivity]|reflexivity].
Qed.
Lemma total_base s L f : NoDup L -> forall p q, (forall ax, ~ In ax L -> p ax = q ax) -> total s L f p = total s L f q.
Proof.
  induction L as [|a r IH]; intros ND p q H; cbn [total].
  - f_equal. extensionality ax. apply H. intros [].
  - inversion ND as [|? ? N1 N2]; subst. apply sumn_ext. intros j _. apply IH; [exact N2|]. intros ax Ha. unfold set_at. destruct (Nat.eqb_spec ax a) as [->|Na]; [reflexivity|].
    apply H. intros [E|E]; [congruence|contradiction].
Qed.

Section mat.
Variables (s : nat -> nat) (axes : list nat) (base : index).
Hypothesis ND : NoDup axes.
Hypothesis Hne : axes <> [].
Hypothesis Hs : forall ax, In ax axes -> (0 < s ax)%nat.
Notation P := (size s axes).
Notation pl := (place s axes base).
Lemma pl_on k : (k < P)%nat -> on_slice s axes base (pl k). Proof. apply place_slice; assumption. Qed.
Lemma minus_minus p k : on_slice s axes base p -> on_slice s axes base k -> minus s axes p (minus s axes p k) = k.
Proof.
  intros [P1 P2] [K1 K2]. extensionality ax. unfold minus. destruct (existsb (Nat.eqb ax) axes) eqn:E.
  - apply existsb_exists in E. destruct E as (y & Hy & Ey). apply Nat.eqb_eq in Ey. subst y. specialize (P1 ax Hy). specialize (K1 ax Hy).
    assert (M : forall a b, (a < s ax)%nat -> (b < s ax)%nat -> ((a + s ax - b) mod s ax = if Nat.leb b a then a - b else a + s ax - b)%nat).
    { intros a b Ha Hb. destruct (Nat.leb_spec b a); [symmetry; apply (Nat.mod_unique _ (s ax) 1); lia|apply Nat.mod_small; lia]. }
    rewrite (M (p ax) (k ax)) by assumption. destruct (Nat.leb_spec (k ax) (p ax)); rewrite M by lia; [destruct (Nat.leb_spec (p ax - k ax) (p ax)); lia|destruct (Nat.leb_spec (p ax + s ax - k ax) (p ax)); lia].
  - rewrite P2, K2; [reflexivity| |]; intros I; rewrite (in_existsb ax axes I) in E; discriminate.
Qed.
Lemma conv_mat h a p : on_slice s axes base p -> conv s axes h a p = sumn P (fun l => h (minus s axes p (pl l)) * a (pl l)).
Proof.
  intros Hp. unfold conv. rewrite (total_base s axes _ ND p base) by (apply Hp).
  refine (eq_trans (eq_sym (total_reflect s p axes ND (proj1 Hp) (fun k => h k * a (minus s axes p k)) base)) _).
  rewrite (sum_place s axes Hs (fun q => h (minus s axes p q) * a q) base). apply CscIterProofs.total_ext; [exact ND|]. intros k Hk.
  assert (E : reflect_on s p axes k = minus s axes p k).
  { extensionality ax. unfold reflect_on, minus. destruct (existsb (Nat.eqb ax) axes) eqn:E; [reflexivity|]. destruct Hk as [_ K2]. destruct Hp as [_ P2].
    assert (~ In ax axes) by (intros I; rewrite (in_existsb ax axes I) in E; discriminate). rewrite K2, P2 by assumption. reflexivity. }
  rewrite E, minus_minus by assumption. reflexivity.
Qed.
Lemma flat_at F m k : (k < P)%nat -> cs_flat s axes base F (m * P + k) = F m (pl k).
Proof. intros Hk. unfold cs_flat. rewrite div_at, mod_at by exact Hk. reflexivity. Qed.
Lemma arr_at x m k : (k < P)%nat -> arr s axes x m (pl k) = x (m * P + k)%nat.
Proof. intros Hk. unfold arr. rewrite rank_place by assumption. reflexivity. Qed.
Lemma P_pos' : (0 < P)%nat. Proof. apply size_pos. exact Hs. Qed.
Lemma below n i : (i < n * P)%nat -> (i / P < n)%nat /\ (i mod P < P)%nat /\ i = (i / P * P + i mod P)%nat.
Proof. intros H. pose proof P_pos'. split; [apply Nat.div_lt_upper_bound; lia|]. split; [apply Nat.mod_upper_bound; lia|]. rewrite (Nat.div_mod i P) at 1 by lia. lia. Qed.
Lemma spread_conv h X m k : (k < P)%nat -> spread s axes h X m (pl k) = conv s axes h (fun q => Rabs (arr s axes X m q)) (pl k).
Proof. intros Hk. unfold spread. apply conv_fft; try assumption. intros ax Ha. apply pl_on; assumption. Qed.
Lemma spread_mat h X m k : (k < P)%nat -> spread s axes h X m (pl k) = sumn P (fun l => h (minus s axes (pl k) (pl l)) * Rabs (X (m * P + l)%nat)).
Proof. intros Hk. rewrite spread_conv by exact Hk. rewrite conv_mat by (apply pl_on; exact Hk). apply sumn_ext. intros l Hl. rewrite arr_at by exact Hl. reflexivity. Qed.
End mat.

(** ** The group matrix *)
Lemma lateral_split M Ng W A m p : (m < M)%nat ->
  lateral M Ng W A m p = sumn M (fun n => share Ng W m n * A n p) + sumn Ng (fun g => W g m * (W g m - 1)) * A m p.
Proof.
  intros Hm. unfold lateral.
  assert (E : sumn Ng (fun g => sumn M (fun n => A n p * W g n) * W g m) = sumn M (fun n => A n p * sumn Ng (fun g => W g m * W g n))).
  { transitivity (sumn Ng (fun g => sumn M (fun n => A n p * (W g m * W g n)))).
    - apply sumn_ext. intros g _. rewrite <- sumn_scal_r. apply sumn_ext. intros. ring.
    - rewrite sumn_swap. apply sumn_ext. intros n _. rewrite sumn_scal. reflexivity. }
  rewrite E. rewrite (sumn_ext M (fun n => A n p * sumn Ng (fun g => W g m * W g n)) (fun n => share Ng W m n * A n p + (if Nat.eqb n m then A n p * sumn Ng (fun g => W g m * W g n) else 0))).
  - rewrite sumn_plus, (sumn_delta M m (fun n => A n p * sumn Ng (fun g => W g m * W g n))) by exact Hm.
    assert (Q : sumn Ng (fun g => W g m * (W g m - 1)) = sumn Ng (fun g => W g m * W g m) - sumn Ng (fun g => W g m)).
    { rewrite <- sumn_minus. apply sumn_ext. intros. ring. }
    rewrite Q. ring.
  - intros n _. unfold share. rewrite (Nat.eqb_sym n m). destruct (Nat.eqb m n); ring.
Qed.
Definition binary (Ng : nat) (W : nat -> nat -> R) : Prop := forall g m, (g < Ng)%nat -> W g m = 0 \/ W g m = 1.
Lemma binary_diag Ng W m : binary Ng W -> sumn Ng (fun g => W g m * (W g m - 1)) = 0.
Proof. intros H. rewrite (sumn_ext Ng _ (fun _ => 0)); [apply sumn_0; reflexivity|]. intros g Hg. destruct (H g m Hg) as [-> | ->]; ring. Qed.
Lemma share_nonneg Ng W m n : binary Ng W -> 0 <= share Ng W m n.
Proof. intros H. unfold share. destruct (Nat.eqb m n); [lra|]. apply sumn_nonneg. intros g Hg. destruct (H g m Hg) as [-> | ->], (H g n Hg) as [-> | ->]; lra. Qed.
Lemma share_sym Ng W m n : share Ng W m n = share Ng W n m.
Proof. unfold share. rewrite Nat.eqb_sym. destruct (Nat.eqb n m); [reflexivity|]. apply sumn_ext. intros. ring. Qed.

(** ** Limits *)
Lemma cv_affine_rec sg (a b : nat -> R) l : 0 <= sg < 1 -> (forall k, a (S k) = sg * a k + (1 - sg) * b k) -> Un_cv b l -> Un_cv a l.
Proof.
  intros Hs Ha Hb eps He. destruct (Hb (eps / 2) ltac:(lra)) as [N HN].
  assert (B : forall j, Rabs (a (N + j)%nat - l) <= sg ^ j * Rabs (a N - l) + eps / 2).
  { induction j as [|j IH].
    - rewrite Nat.add_0_r. simpl. pose proof (Rabs_pos (a N - l)). lra.
    - replace (N + S j)%nat with (S (N + j)) by lia. rewrite Ha. specialize (HN (N + j)%nat ltac:(lia)). unfold R_dist in HN.
      replace (sg * a (N + j)%nat + (1 - sg) * b (N + j)%nat - l) with (sg * (a (N + j)%nat - l) + (1 - sg) * (b (N + j)%nat - l)) by ring.
      eapply Rle_trans; [apply Rabs_triang|]. rewrite !Rabs_mult, (Rabs_pos_eq sg), (Rabs_pos_eq (1 - sg)) by lra. simpl. nra. }
  destruct (pow_lt_1_zero sg ltac:(rewrite Rabs_pos_eq; lra) (eps / 2 / (Rabs (a N - l) + 1))) as [N2 H2].
  { apply Rdiv_lt_0_compat; [lra|]. pose proof (Rabs_pos (a N - l)). lra. }
  exists (N + N2)%nat. intros k Hk. replace k with (N + (k - N))%nat by lia. unfold R_dist. eapply Rle_lt_trans; [apply B|].
  specialize (H2 (k - N)%nat ltac:(lia)). rewrite Rabs_pos_eq in H2 by (apply pow_le; lra). pose proof (Rabs_pos (a N - l)) as Q.
  assert (sg ^ (k - N) * (Rabs (a N - l) + 1) < eps / 2).
  { apply (Rmult_lt_compat_r (Rabs (a N - l) + 1)) in H2; [|lra]. replace (eps / 2 / (Rabs (a N - l) + 1) * (Rabs (a N - l) + 1)) with (eps / 2) in H2 by (field; lra). exact H2. }
  pose proof (pow_le sg (k - N) ltac:(lra)). nra.
Qed.
Lemma soft_max v t : 0 <= t -> sgn v * Rmax (Rabs v - t) 0 = Rmax (v - t) 0 - Rmax (- v - t) 0.
Proof.
  intros Ht. destruct (Rtotal_order v 0) as [H|[H|H]].
  - rewrite ProxProofs.sgn_neg by lra. rewrite (Rabs_left v) by lra. rewrite (Rmax_right (v - t) 0) by lra. ring.
  - subst v. rewrite ProxProofs.sgn_0, Rabs_R0, Ropp_0. ring.
  - rewrite ProxProofs.sgn_pos by lra. rewrite (Rabs_pos_eq v) by lra. rewrite (Rmax_right (- v - t) 0) by lra. ring.
Qed.
Lemma cv_max0 (a : nat -> R) l : Un_cv a l -> Un_cv (fun k => Rmax (a k) 0) (Rmax l 0).
Proof.
  intros H eps He. destruct (H eps He) as [N HN]. exists N. intros k Hk. specialize (HN k Hk). unfold R_dist in *.
  eapply Rle_lt_trans; [|exact HN]. unfold Rmax. destruct (Rle_dec (a k) 0), (Rle_dec l 0); unfold Rabs; repeat destruct (Rcase_abs _); lra.
Qed.
