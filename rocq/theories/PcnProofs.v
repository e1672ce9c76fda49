Require Import List Arith Reals Bool Lia Lra FunctionalExtensionality.
Require Import Verif.RVec Verif.FftModel Verif.FftProofs Verif.PcnModel.
Require Verif.CnvrepModel.
Import ListNotations.
Local Open Scope R_scope.

(** ** Sums *)
Lemma rsum_0 s axes f : forall idx, (forall i, (forall ax, In ax axes -> (i ax < s ax)%nat) -> (forall ax, ~ In ax axes -> i ax = idx ax) -> f i = 0) ->
  rsum s axes f idx = 0.
Proof.
  intros idx H. rewrite (rsum_ext_in s axes f (fun _ => 0)) by exact H. clear H. revert idx.
  induction axes as [|ax r IH]; intros idx; simpl; [reflexivity|]. apply sumn_0. intros j _. apply IH.
Qed.
Lemma rsum_nonneg s axes f : (forall i, 0 <= f i) -> forall idx, 0 <= rsum s axes f idx.
Proof. intros H. induction axes as [|ax r IH]; intros idx; simpl; [apply H|]. apply sumn_nonneg. intros. apply IH. Qed.
Lemma rsum_shrink s t axes f : NoDup axes -> (forall ax, In ax axes -> (t ax <= s ax)%nat) ->
  (forall i ax, In ax axes -> (t ax <= i ax < s ax)%nat -> f i = 0) -> forall idx, rsum s axes f idx = rsum t axes f idx.
Proof.
  intros ND. induction axes as [|ax r IH]; intros Ht Hf idx; simpl; [reflexivity|]. inversion ND as [|? ? N1 N2]; subst.
  specialize (IH N2 (fun a Ha => Ht a (or_intror Ha)) (fun i a Ha => Hf i a (or_intror Ha))).
  rewrite (sumn_ext (s ax) _ (fun j => rsum t r f (upd idx ax j))) by (intros; apply IH).
  specialize (Ht ax (or_introl eq_refl)).
  replace (s ax) with (t ax + (s ax - t ax))%nat by lia. rewrite sumn_split.
  rewrite (sumn_0 (s ax - t ax)); [lra|]. intros j Hj. apply rsum_0. intros i _ Hi.
  apply (Hf i ax (or_introl eq_refl)). rewrite (Hi ax N1), upd_same. lia.
Qed.
Lemma rsum_sq_0 s axes f : forall idx, rsum s axes (fun i => f i * f i) idx = 0 ->
  forall i, (forall ax, In ax axes -> (i ax < s ax)%nat) -> (forall ax, ~ In ax axes -> i ax = idx ax) -> f i = 0.
Proof.
  induction axes as [|ax r IH]; intros idx H i H1 H2; simpl in H.
  - assert (i = idx) by (extensionality a; apply H2; intros []). subst. nra.
  - assert (K : rsum s r (fun i => f i * f i) (upd idx ax (i ax)) = 0).
    { apply (sumn_nonneg_0 (s ax) (fun j => rsum s r (fun i => f i * f i) (upd idx ax j))).
      - intros j _. apply rsum_nonneg. intros. nra.
      - exact H.
      - apply H1. left. reflexivity. }
    apply (IH _ K i).
    + intros a Ha. apply H1. right. exact Ha.
    + intros a Ha. unfold upd. destruct (Nat.eqb_spec a ax) as [->|N]; [reflexivity|]. apply H2. intros [E|E]; [congruence|contradiction].
Qed.

(** ** Boxes are disjoint *)
Lemma cboxes_in dN m0 m1 : forall szs c0 b, In b (cboxes dN m0 m1 c0 szs) ->
  exists a e, bc_ b = Some (a, e) /\ (c0 <= a)%nat /\ bm b = Some (m0, m1).
Proof.
  induction szs as [|s r IH]; intros c0 b Hb; [destruct Hb|]. destruct Hb as [<-|Hb].
  - eexists. eexists. split; [reflexivity|]. split; [lia|reflexivity].
  - destruct (IH _ _ Hb) as (a & e & E & L & Em). exists a, e. split; [exact E|]. split; [lia|exact Em].
Qed.
Lemma mboxes_in dN : forall bs m0 b, In b (mboxes dN m0 bs) -> exists a e, bm b = Some (a, e) /\ (m0 <= a)%nat.
Proof.
  induction bs as [|[s|l] r IH]; intros m0 b Hb; [destruct Hb| |].
  - destruct Hb as [<-|Hb]; [eexists; eexists; split; [reflexivity|lia]|]. destruct (IH _ _ Hb) as (a & e & E & L). exists a, e. split; [exact E|lia].
  - apply in_app_or in Hb. destruct Hb as [Hb|Hb].
    + destruct (cboxes_in _ _ _ _ _ _ Hb) as (a & e & _ & _ & Em). exists m0, (m0 + last (hd [] l) O)%nat. split; [exact Em|lia].
    + destruct (IH _ _ Hb) as (a & e & E & L). exists a, e. split; [exact E|lia].
Qed.
Definition disj (dN dL : nat) (b1 b2 : box) : Prop := forall idx, sel dN dL b1 idx = true -> sel dN dL b2 idx = false.
Lemma disj_m dN dL b1 b2 a1 e1 a2 e2 : bm b1 = Some (a1, e1) -> bm b2 = Some (a2, e2) -> (e1 <= a2)%nat -> disj dN dL b1 b2.
Proof.
  intros E1 E2 L idx H. unfold sel in *. rewrite E1 in H. rewrite E2. apply andb_prop in H. destruct H as [_ H]. simpl in H.
  apply andb_prop in H. destruct H as [_ H]. apply Nat.ltb_lt in H. simpl.
  replace (Nat.leb a2 (idx dL)) with false by (symmetry; apply Nat.leb_gt; lia). apply andb_false_r.
Qed.
Lemma disj_c dN dL b1 b2 a1 e1 a2 e2 : bc_ b1 = Some (a1, e1) -> bc_ b2 = Some (a2, e2) -> (e1 <= a2)%nat -> disj dN dL b1 b2.
Proof.
  intros E1 E2 L idx H. unfold sel in *. rewrite E1 in H. rewrite E2. apply andb_prop in H. destruct H as [H _]. simpl in H.
  apply andb_prop in H. destruct H as [_ H]. apply Nat.ltb_lt in H. simpl.
  replace (Nat.leb a2 (idx dN)) with false by (symmetry; apply Nat.leb_gt; lia). reflexivity.
Qed.
Inductive pairwise (P : box -> box -> Prop) : list box -> Prop :=
| pw_nil : pairwise P []
| pw_cons b l : (forall b', In b' l -> P b b') -> pairwise P l -> pairwise P (b :: l).
Lemma pairwise_app P l1 l2 : pairwise P l1 -> pairwise P l2 -> (forall a b, In a l1 -> In b l2 -> P a b) -> pairwise P (l1 ++ l2).
Proof.
  intros H1 H2. induction H1 as [|b l Hb Hl IH]; intros H; [exact H2|]. simpl. constructor.
  - intros b' Hb'. apply in_app_or in Hb'. destruct Hb' as [I|I]; [apply Hb; exact I|apply H; [left; reflexivity|exact I]].
  - apply IH. intros a c Ha Hc. apply H; [right; exact Ha|exact Hc].
Qed.
Lemma cboxes_pw dN dL m0 m1 : forall szs c0, pairwise (disj dN dL) (cboxes dN m0 m1 c0 szs).
Proof.
  induction szs as [|s r IH]; intros c0; simpl; constructor; [|apply IH].
  intros b' Hb'. destruct (cboxes_in _ _ _ _ _ _ Hb') as (a & e & E & L & _). eapply disj_c; [reflexivity|exact E|exact L].
Qed.
Lemma boxes_pw dN dL d : pairwise (disj dN dL) (boxes dN d).
Proof.
  destruct d as [s|bs]; simpl; [constructor; [intros ? []|constructor]|]. generalize O.
  induction bs as [|[s|l] r IH]; intros m0; simpl; [constructor| |].
  - constructor; [|apply IH]. intros b' Hb'. destruct (mboxes_in _ _ _ _ Hb') as (a & e & E & L). eapply disj_m; [reflexivity|exact E|exact L].
  - apply pairwise_app; [apply cboxes_pw|apply IH|]. intros a b Ha Hb.
    destruct (cboxes_in _ _ _ _ _ _ Ha) as (? & ? & _ & _ & Em). destruct (mboxes_in _ _ _ _ Hb) as (a2 & e2 & E & L).
    eapply disj_m; [exact Em|exact E|exact L].
Qed.

Lemma fold_find dN dL (F : R -> box -> R) l idx : pairwise (disj dN dL) l -> forall a,
  fold_left (fun acc b => if in_box dN dL b idx then F acc b else acc) l a =
  match find (fun b => sel dN dL b idx) l with None => a | Some b => if in_spat dN (bsz b) idx then F a b else a end.
Proof.
  intros H. induction H as [|b l Hb Hl IH]; intros a; simpl; [reflexivity|]. unfold in_box at 2.
  destruct (sel dN dL b idx) eqn:E.
  - rewrite andb_true_r. set (a' := if in_spat dN (bsz b) idx then F a b else a).
    assert (N : forall l', (forall b', In b' l' -> In b' l) -> fold_left (fun acc b0 => if in_box dN dL b0 idx then F acc b0 else acc) l' a' = a').
    { induction l' as [|c l' IHl]; intros Hs; simpl; [reflexivity|]. unfold in_box at 2. rewrite (Hb c (Hs c (or_introl eq_refl)) idx E), andb_false_r.
      apply IHl. intros. apply Hs. right. assumption. }
    apply N. auto.
  - rewrite andb_false_r. apply IH.
Qed.

(** ** The linear part, as a single expression *)
Definition pl (d : CnvrepModel.dsize) (dN : nat) (zm : bool) (x : index -> R) (i : index) : R :=
  match find (fun b => sel dN (dN + 2) b i) (boxes dN d) with
  | None => 0
  | Some b => if in_spat dN (bsz b) i then x i - (if zm then rsum (bsz b) (seq 0 dN) x i / prodn (bsz b) (seq 0 dN) else 0) else 0
  end.
Definition support (d : CnvrepModel.dsize) (dN : nat) (i : index) : bool := existsb (fun b => in_box dN (dN + 2) b i) (boxes dN d).

Lemma find_base dN d i k : (forall ax, ~ In ax (seq 0 dN) -> k ax = i ax) ->
  find (fun b => sel dN (dN + 2) b k) (boxes dN d) = find (fun b => sel dN (dN + 2) b i) (boxes dN d).
Proof.
  intros H. assert (E : forall b, sel dN (dN + 2) b k = sel dN (dN + 2) b i).
  { intros b. unfold sel. rewrite (H dN), (H (dN + 2)%nat) by (rewrite in_seq; lia). reflexivity. }
  induction (boxes dN d) as [|b l IH]; simpl; [reflexivity|]. rewrite E, IH. reflexivity.
Qed.
Lemma in_spat_iff dN t i : in_spat dN t i = true <-> forall ax, In ax (seq 0 dN) -> (i ax < t ax)%nat.
Proof. unfold in_spat. rewrite forallb_forall. split; intros H ax Ha; specialize (H ax Ha); [apply Nat.ltb_lt in H|apply Nat.ltb_lt]; exact H. Qed.

Lemma support_find d dN i : support d dN i = match find (fun b => sel dN (dN + 2) b i) (boxes dN d) with None => false | Some b => in_spat dN (bsz b) i end.
Proof.
  unfold support. pose proof (boxes_pw dN (dN + 2) d) as H. induction H as [|b l Hb Hl IH]; simpl; [reflexivity|]. unfold in_box at 1.
  destruct (sel dN (dN + 2) b i) eqn:E.
  - rewrite andb_true_r. destruct (in_spat dN (bsz b) i); [reflexivity|]. simpl.
    destruct (existsb (fun b0 => in_box dN (dN + 2) b0 i) l) eqn:X; [|reflexivity]. apply existsb_exists in X. destruct X as (b' & I & X).
    unfold in_box in X. rewrite (Hb b' I i E), andb_false_r in X. discriminate.
  - rewrite andb_false_r. simpl. exact IH.
Qed.
Lemma pl_support d dN zm x i : support d dN i = false -> pl d dN zm x i = 0.
Proof.
  rewrite support_find. unfold pl. destruct (find _ _) as [b|]; [|reflexivity]. intros ->. reflexivity.
Qed.

Section fix_.
Variables (d : CnvrepModel.dsize) (dN : nat) (s : nat -> nat).
(** The boxes are inside the array and not empty. *)
Hypothesis Hbox : forall b, In b (boxes dN d) -> forall i, (i < dN)%nat -> (0 < bsz b i <= s i)%nat.

Lemma find_in b i : find (fun b => sel dN (dN + 2) b i) (boxes dN d) = Some b -> In b (boxes dN d).
Proof. intros H. apply find_some in H. apply H. Qed.

Lemma rsum_in_box b f i : In b (boxes dN d) -> (forall k, in_spat dN (bsz b) k = false -> f k = 0) ->
  rsum s (seq 0 dN) f i = rsum (bsz b) (seq 0 dN) f i.
Proof.
  intros Hb Hf. apply rsum_shrink.
  - apply seq_NoDup.
  - intros ax Ha. apply in_seq in Ha. apply (Hbox b Hb). lia.
  - intros k ax Ha Hk. apply Hf. destruct (in_spat dN (bsz b) k) eqn:E; [|reflexivity].
    pose proof (proj1 (in_spat_iff _ _ _) E ax Ha). lia.
Qed.
Lemma prod_pos b : In b (boxes dN d) -> 0 < prodn (bsz b) (seq 0 dN).
Proof. intros Hb. apply prodn_pos. intros ax Ha. apply in_seq in Ha. apply (Hbox b Hb). lia. Qed.

Lemma rsum_const t axes c : forall i, rsum t axes (fun _ => c) i = prodn t axes * c.
Proof.
  induction axes as [|ax r IH]; intros i; simpl; [ring|]. rewrite (sumn_ext _ _ (fun _ => prodn t r * c)) by (intros; apply IH).
  rewrite sumn_const. ring.
Qed.

(** Fiberwise: a function vanishing outside the support, on the fiber of [i]. *)
Lemma fiber_sum f i b : find (fun b => sel dN (dN + 2) b i) (boxes dN d) = Some b ->
  (forall k, (forall ax, ~ In ax (seq 0 dN) -> k ax = i ax) -> support d dN k = false -> f k = 0) ->
  rsum s (seq 0 dN) f i = rsum (bsz b) (seq 0 dN) f i.
Proof.
  intros E Hf.
  set (g := fun k => if in_spat dN (bsz b) k then f k else 0).
  rewrite (rsum_ext_in s (seq 0 dN) f g).
  2: { intros k _ Hk. unfold g. destruct (in_spat dN (bsz b) k) eqn:S; [reflexivity|]. apply Hf; [exact Hk|].
       rewrite support_find, (find_base dN d i k Hk), E. exact S. }
  rewrite (rsum_in_box b g i) by (try apply (find_in b i E); intros k Hk; unfold g; rewrite Hk; reflexivity).
  apply rsum_ext_in. intros k Hk _. unfold g. rewrite (proj2 (in_spat_iff dN (bsz b) k) Hk). reflexivity.
Qed.
Lemma fiber_none f i : find (fun b => sel dN (dN + 2) b i) (boxes dN d) = None ->
  (forall k, (forall ax, ~ In ax (seq 0 dN) -> k ax = i ax) -> support d dN k = false -> f k = 0) ->
  rsum s (seq 0 dN) f i = 0.
Proof.
  intros E Hf. apply rsum_0. intros k _ Hk. apply Hf; [exact Hk|]. rewrite support_find, (find_base dN d i k Hk), E. reflexivity.
Qed.

Lemma pl_in zm x i b k : find (fun b => sel dN (dN + 2) b i) (boxes dN d) = Some b ->
  (forall ax, ~ In ax (seq 0 dN) -> k ax = i ax) -> (forall ax, In ax (seq 0 dN) -> (k ax < bsz b ax)%nat) ->
  pl d dN zm x k = x k - (if zm then rsum (bsz b) (seq 0 dN) x i / prodn (bsz b) (seq 0 dN) else 0).
Proof.
  intros E Hk Hb. unfold pl. rewrite (find_base dN d i k Hk), E, (proj2 (in_spat_iff dN (bsz b) k) Hb).
  destruct zm; [|reflexivity]. f_equal. f_equal. apply rsum_base. exact Hk.
Qed.

Lemma pl_zero_mean x i : rsum s (seq 0 dN) (pl d dN true x) i = 0.
Proof.
  destruct (find (fun b => sel dN (dN + 2) b i) (boxes dN d)) as [b|] eqn:E.
  - rewrite (fiber_sum _ i b E) by (intros; apply pl_support; assumption).
    rewrite (rsum_ext_in _ _ _ (fun k => x k + - (rsum (bsz b) (seq 0 dN) x i / prodn (bsz b) (seq 0 dN)))).
    + rewrite rsum_plus, rsum_const. pose proof (prod_pos b (find_in b i E)). field. lra.
    + intros k H1 H2. rewrite (pl_in true x i b k E H2 H1). ring.
  - apply fiber_none; [exact E|]. intros; apply pl_support; assumption.
Qed.

(** The residual is orthogonal to every feasible direction. *)
Lemma pl_orth zm x y i :
  (forall k, (forall ax, ~ In ax (seq 0 dN) -> k ax = i ax) -> support d dN k = false -> y k = 0) ->
  (zm = true -> rsum s (seq 0 dN) y i = 0) ->
  rsum s (seq 0 dN) (fun k => (x k - pl d dN zm x k) * y k) i = 0.
Proof.
  intros Hy Hz. destruct (find (fun b => sel dN (dN + 2) b i) (boxes dN d)) as [b|] eqn:E.
  - rewrite (fiber_sum _ i b E) by (intros k H1 H2; rewrite (Hy k H1 H2); ring).
    set (m := if zm then rsum (bsz b) (seq 0 dN) x i / prodn (bsz b) (seq 0 dN) else 0).
    rewrite (rsum_ext_in _ _ _ (fun k => m * y k)) by (intros k H1 H2; rewrite (pl_in zm x i b k E H2 H1); fold m; ring).
    rewrite rsum_scal. unfold m. destruct zm; [|ring]. rewrite <- (fiber_sum y i b E Hy), (Hz eq_refl). ring.
  - apply fiber_none; [exact E|]. intros k H1 H2. rewrite (Hy k H1 H2). ring.
Qed.

(** Feasible arrays are unchanged. *)
Lemma pl_fix zm y i : (forall k, (forall ax, ~ In ax (seq 0 dN) -> k ax = i ax) -> support d dN k = false -> y k = 0) ->
  (zm = true -> rsum s (seq 0 dN) y i = 0) -> pl d dN zm y i = y i.
Proof.
  intros Hy Hz. destruct (support d dN i) eqn:S.
  - rewrite support_find in S. unfold pl. destruct (find (fun b => sel dN (dN + 2) b i) (boxes dN d)) as [b|] eqn:E; [|discriminate].
    rewrite S. destruct zm; [|ring]. rewrite <- (fiber_sum y i b E Hy), (Hz eq_refl). unfold Rdiv. ring.
  - rewrite pl_support by exact S. symmetry. apply Hy; [reflexivity|exact S].
Qed.
End fix_.

(** ** The stages of the code *)
Lemma fold_max_ge (dN : nat) (l : list box) i b : In b l -> (bsz b i <= fold_right (fun b m => Nat.max (bsz b i) m) O l)%nat.
Proof. induction l as [|c l IH]; intros []; simpl; [subst; lia|]. specialize (IH H). lia. Qed.

Lemma bcrop_val d dN v i : in_spat dN (shp (bcrop dN (dN + 2) d v)) i = true -> val (bcrop dN (dN + 2) d v) i = pl d dN false (val v) i.
Proof.
  unfold pl. destruct d as [s|bs]; cbn [bcrop shp val].
  - intros H. cbn [boxes find sel in_range bc_ bm andb]. 
    assert (E : in_spat dN (bsz (mkBox (firstn dN s) None None)) i = true).
    { apply in_spat_iff. intros ax Ha. pose proof (proj1 (in_spat_iff _ _ _) H ax Ha) as K. cbv beta in K.
      apply in_seq in Ha. destruct (Nat.ltb_spec ax dN); [|lia]. unfold bsz. cbn [bx].
      rewrite <- (firstn_skipn dN s) in K. destruct (Nat.lt_ge_cases ax (length (firstn dN s))) as [L|L].
      - rewrite app_nth1 in K by exact L. exact K.
      - rewrite app_nth2 in K by exact L. rewrite firstn_length in *.
        assert (length s <= dN)%nat by lia. rewrite skipn_all2 in K by assumption. destruct (ax - Nat.min dN (length s))%nat in K; simpl in K; lia. }
    unfold sel. cbn [in_range bc_ bm andb]. rewrite E. ring.
  - intros _. rewrite (fold_find dN (dN + 2) (fun _ _ => val v i)) by apply boxes_pw.
    destruct (find _ _) as [b|]; [|reflexivity]. destruct (in_spat dN (bsz b) i); ring.
Qed.
Lemma bcrop_outside d dN zm x v i : (forall ax, (ax < dN)%nat -> True) -> in_spat dN (shp (bcrop dN (dN + 2) d v)) i = false -> pl d dN zm x i = 0.
Proof.
  intros _ H. apply pl_support. rewrite support_find. destruct (find (fun b => sel dN (dN + 2) b i) (boxes dN d)) as [b|] eqn:E; [|reflexivity].
  destruct (in_spat dN (bsz b) i) eqn:S; [|reflexivity]. exfalso.
  assert (T : in_spat dN (shp (bcrop dN (dN + 2) d v)) i = true); [|congruence].
  apply in_spat_iff. intros ax Ha. pose proof (proj1 (in_spat_iff _ _ _) S ax Ha) as K. apply find_in in E. apply in_seq in Ha.
  destruct d as [s|bs]; cbn [bcrop shp]; destruct (Nat.ltb_spec ax dN); try lia.
  - destruct E as [<-|[]]. unfold bsz in K. cbn [bx] in K. rewrite <- (firstn_skipn dN s).
    destruct (Nat.lt_ge_cases ax (length (firstn dN s))) as [L|L]; [rewrite app_nth1 by exact L; exact K|].
    rewrite nth_overflow in K by exact L. lia.
  - pose proof (fold_max_ge dN (boxes dN (CnvrepModel.Blocks bs)) ax b E). lia.
Qed.
Lemma bcrop_box d dN v b ax : In b (boxes dN d) -> (ax < dN)%nat -> (bsz b ax <= shp (bcrop dN (dN + 2) d v) ax)%nat.
Proof.
  intros Hb Ha. destruct d as [s|bs]; cbn [bcrop shp]; destruct (Nat.ltb_spec ax dN); try lia.
  - destruct Hb as [<-|[]]. unfold bsz. cbn [bx]. rewrite <- (firstn_skipn dN s) at 2.
    destruct (Nat.lt_ge_cases ax (length (firstn dN s))) as [L|L]; [rewrite app_nth1 by exact L; lia|rewrite (nth_overflow (firstn dN s)) by exact L; lia].
  - apply fold_max_ge; [exact dN|exact Hb].
Qed.

(** The zero mean step on an array which agrees with the masked one on valid indices. *)
Lemma zeromean_val d dN v x i : (forall b ax, In b (boxes dN d) -> (ax < dN)%nat -> (bsz b ax <= shp v ax)%nat) ->
  (forall k, in_spat dN (shp v) k = true -> val v k = pl d dN false x k) ->
  in_spat dN (shp v) i = true -> val (zeromean dN (dN + 2) d v) i = pl d dN true x i.
Proof.
  intros Hb Hv Hi. cbn [zeromean val]. rewrite (fold_find dN (dN + 2) (fun acc b => acc - mean dN b v i)) by apply boxes_pw.
  rewrite (Hv i Hi). unfold pl.
  destruct (find (fun b => sel dN (dN + 2) b i) (boxes dN d)) as [b|] eqn:E; [|reflexivity].
  destruct (in_spat dN (bsz b) i) eqn:S; [|reflexivity]. f_equal; [ring|]. unfold mean. f_equal.
  apply rsum_ext_in. intros k H1 H2. rewrite Hv.
  - rewrite (pl_in d dN false x i b k E H2 H1). ring.
  - apply in_spat_iff. intros ax Ha. specialize (H1 ax Ha). apply in_seq in Ha. pose proof (Hb b ax (find_in d dN b i E) ltac:(lia)). lia.
Qed.

(** The norm of the linear part over the normalised axes, and the normalised result. *)
Definition nfac (d : CnvrepModel.dsize) (dN dC : nat) (s : nat -> nat) (zm : bool) (x : index -> R) (i : index) : R :=
  let vn := sqrt (rsum s (seq 0 (dN + dC)) (fun k => pl d dN zm x k * pl d dN zm x k) i) in if Req_EM_T vn 0 then 1 else vn.
Definition pn (d : CnvrepModel.dsize) (dN dC : nat) (s : nat -> nat) (zm : bool) (x : index -> R) (i : index) : R :=
  pl d dN zm x i / nfac d dN dC s zm x i.

(** Sizes of the result: [nv] on the spatial axes. *)
Definition full_shape (dN : nat) (nv : nat -> nat) (x : arr) : nat -> nat := fun i => if Nat.ltb i dN then nv i else shp x i.

Lemma Pcn_val d nv dN dC (crp zm : bool) (x : arr) (i : index) :
  (forall b ax, In b (boxes dN d) -> (ax < dN)%nat -> (bsz b ax <= nv ax)%nat) ->
  (forall ax, (ax < dN)%nat -> (shp (bcrop dN (dN + 2) d x) ax <= nv ax)%nat) ->
  in_spat dN (if crp then shp (bcrop dN (dN + 2) d x) else full_shape dN nv x) i = true ->
  val (Pcn d nv dN dC crp zm x) i = pn d dN dC (full_shape dN nv x) zm (val x) i.
Proof.
  intros Hb Hc Hi. unfold Pcn. cbv zeta.
  set (v := (if crp then (fun a : arr => a) else zpad dN nv) (bcrop dN (dN + 2) d x)).
  assert (Hs : shp v = if crp then shp (bcrop dN (dN + 2) d x) else full_shape dN nv x).
  { unfold v. destruct crp; [reflexivity|]. extensionality ax. unfold full_shape. simpl. destruct (Nat.ltb_spec ax dN); [reflexivity|].
    destruct d; simpl; destruct (Nat.ltb_spec ax dN); (reflexivity || lia). }
  assert (V : forall k, in_spat dN (shp v) k = true -> val v k = pl d dN false (val x) k).
  { intros k Hk. unfold v. unfold v in Hk. destruct crp; [apply bcrop_val; exact Hk|]. simpl.
    destruct (in_spat dN (shp (bcrop dN (dN + 2) d x)) k) eqn:S; [apply bcrop_val; exact S|].
    symmetry. apply (bcrop_outside d dN false (val x) x k); [auto|exact S]. }
  set (z := (if zm then zeromean dN (dN + 2) d else (fun a : arr => a)) v).
  assert (Hz : shp z = shp v) by (unfold z; destruct zm; reflexivity).
  assert (Z : forall k, in_spat dN (shp v) k = true -> val z k = pl d dN zm (val x) k).
  { intros k Hk. unfold z. destruct zm; [|apply V; exact Hk]. apply zeromean_val; [|exact V|exact Hk].
    intros b ax Hbb Ha. rewrite Hs. destruct crp; [apply bcrop_box; assumption|]. unfold full_shape.
    destruct (Nat.ltb_spec ax dN); [apply Hb; assumption|lia]. }
  fold z. cbn [normalise val]. unfold pn. rewrite (Z i) by (rewrite Hs; exact Hi). f_equal. unfold nfac.
  assert (N : rsum (shp z) (seq 0 (dN + dC)) (fun k => val z k * val z k) i =
              rsum (full_shape dN nv x) (seq 0 (dN + dC)) (fun k => pl d dN zm (val x) k * pl d dN zm (val x) k) i); [|rewrite N; reflexivity].
  rewrite (rsum_ext_in (shp z) _ _ (fun k => pl d dN zm (val x) k * pl d dN zm (val x) k)).
  2: { intros k H1 _. rewrite Z; [reflexivity|]. apply in_spat_iff. intros ax Ha. apply in_seq in Ha. rewrite <- Hz. apply H1. apply in_seq. lia. }
  rewrite Hz, Hs. destruct crp; [|reflexivity]. symmetry. apply rsum_shrink.
  - apply seq_NoDup.
  - intros ax Ha. unfold full_shape. destruct (Nat.ltb_spec ax dN); [apply Hc; assumption|].
    destruct d; simpl; destruct (Nat.ltb_spec ax dN); lia.
  - intros k ax Ha Hk. destruct (Nat.lt_ge_cases ax dN) as [L|L].
    + rewrite (bcrop_outside d dN zm (val x) x k); [ring|auto|].
      destruct (in_spat dN (shp (bcrop dN (dN + 2) d x)) k) eqn:S; [|reflexivity].
      pose proof (proj1 (in_spat_iff _ _ _) S ax ltac:(apply in_seq; lia)). lia.
    + exfalso. unfold full_shape in Hk. destruct (Nat.ltb_spec ax dN); [lia|].
      destruct d; cbn [bcrop shp] in Hk; destruct (Nat.ltb_spec ax dN); lia.
Qed.

Lemma rsum_app s a b f i : rsum s (a ++ b) f i = rsum s a (fun k => rsum s b f k) i.
Proof. revert i. induction a as [|ax r IH]; intros i; simpl; [reflexivity|]. apply sumn_ext. intros. apply IH. Qed.
Lemma rsum_swap s a b f : (forall ax, In ax a -> ~ In ax b) -> forall i, rsum s a (fun k => rsum s b f k) i = rsum s b (fun k => rsum s a f k) i.
Proof.
  induction a as [|ax r IH]; intros H i; simpl; [reflexivity|].
  rewrite (sumn_ext _ _ (fun j => rsum s b (fun k => rsum s r f (upd k ax j)) i)).
  - rewrite <- rsum_sumn. reflexivity.
  - intros j _. rewrite IH by (intros; apply H; right; assumption). apply rsum_upd. apply H. left. reflexivity.
Qed.
(** Filter sums through spatial fibers. *)
Lemma rsum_fibers s dN dC f i : rsum s (seq 0 (dN + dC)) f i = rsum s (seq dN dC) (fun k => rsum s (seq 0 dN) f k) i.
Proof.
  rewrite seq_app, rsum_app. apply rsum_swap. intros ax H1 H2. rewrite in_seq in *. lia.
Qed.

Section pn.
Variables (d : CnvrepModel.dsize) (dN dC : nat) (s : nat -> nat) (zm : bool).
Hypothesis Hbox : forall b, In b (boxes dN d) -> forall i, (i < dN)%nat -> (0 < bsz b i <= s i)%nat.
Notation A := (seq 0 (dN + dC)).
Definition feas (y : index -> R) : Prop := (forall k, support d dN k = false -> y k = 0) /\ (zm = true -> forall k, rsum s (seq 0 dN) y k = 0).

Lemma nfac_base x i k : (forall ax, ~ In ax A -> k ax = i ax) -> nfac d dN dC s zm x k = nfac d dN dC s zm x i.
Proof. intros H. unfold nfac. rewrite (rsum_base s A _ i k H). reflexivity. Qed.
Lemma nfac_pos x i : 0 < nfac d dN dC s zm x i.
Proof.
  unfold nfac. cbv zeta. set (v := sqrt _). pose proof (sqrt_pos (rsum s A (fun k => pl d dN zm x k * pl d dN zm x k) i)). fold v in H.
  destruct (Req_EM_T v 0); lra.
Qed.
Lemma pl_feas x : feas (pl d dN zm x).
Proof. split; [intros; apply pl_support; assumption|]. intros -> k. apply pl_zero_mean. exact Hbox. Qed.
Lemma pn_feas x : feas (pn d dN dC s zm x).
Proof.
  split; [intros k Hk; unfold pn; rewrite pl_support by exact Hk; unfold Rdiv; ring|]. intros Ez k. unfold pn.
  rewrite (rsum_ext_in s _ _ (fun j => / nfac d dN dC s zm x k * pl d dN zm x j)).
  - rewrite rsum_scal. destruct (pl_feas x) as [_ H]. rewrite (H Ez). ring.
  - intros j _ Hj. rewrite (nfac_base x k j); [unfold Rdiv; ring|]. intros ax Ha. apply Hj. intros I. apply Ha. rewrite in_seq in *. lia.
Qed.
Lemma pn_dot x g i : rsum s A (fun k => pn d dN dC s zm x k * g k) i = / nfac d dN dC s zm x i * rsum s A (fun k => pl d dN zm x k * g k) i.
Proof.
  rewrite <- rsum_scal. apply rsum_ext_in. intros k _ Hk. unfold pn. rewrite (nfac_base x i k Hk). unfold Rdiv. ring.
Qed.
Lemma pl_orth_all x y i : feas y -> rsum s A (fun k => (x k - pl d dN zm x k) * y k) i = 0.
Proof.
  intros [H1 H2]. rewrite rsum_fibers. apply rsum_0. intros k _ _. apply pl_orth; [exact Hbox|intros j _; apply H1|]. intros E. apply H2. exact E.
Qed.
Definition nrm2 x i := rsum s A (fun k => pl d dN zm x k * pl d dN zm x k) i.
Lemma nrm2_nonneg x i : 0 <= nrm2 x i.
Proof. apply rsum_nonneg. intros. nra. Qed.
Lemma nfac_sq x i : nrm2 x i <> 0 -> nfac d dN dC s zm x i * nfac d dN dC s zm x i = nrm2 x i.
Proof.
  intros H. unfold nfac. fold (nrm2 x i). cbv zeta. pose proof (nrm2_nonneg x i). destruct (Req_EM_T (sqrt (nrm2 x i)) 0) as [E|E].
  - apply sqrt_eq_0 in E; [contradiction|assumption].
  - apply sqrt_sqrt. assumption.
Qed.
Lemma pn_norm x i : nrm2 x i <> 0 -> rsum s A (fun k => pn d dN dC s zm x k * pn d dN dC s zm x k) i = 1.
Proof.
  intros H. rewrite pn_dot. rewrite (rsum_ext_in s A _ (fun k => pn d dN dC s zm x k * pl d dN zm x k)) by (intros; ring).
  rewrite pn_dot. fold (nrm2 x i). rewrite <- (nfac_sq x i H). pose proof (nfac_pos x i). field. lra.
Qed.
Lemma pn_zero x i : nrm2 x i = 0 -> forall k, (forall ax, In ax A -> (k ax < s ax)%nat) -> (forall ax, ~ In ax A -> k ax = i ax) -> pn d dN dC s zm x k = 0.
Proof. intros H k H1 H2. unfold pn. rewrite (rsum_sq_0 s A (pl d dN zm x) i H k H1 H2). unfold Rdiv. ring. Qed.

Lemma rsum_lin2 f g h a b c i : rsum s A (fun k => a * f k + b * g k + c * h k) i = a * rsum s A f i + b * rsum s A g i + c * rsum s A h i.
Proof. rewrite !rsum_plus, !rsum_scal. ring. Qed.
Lemma dist2 x y i : rsum s A (fun k => (x k - y k) * (x k - y k)) i =
  rsum s A (fun k => x k * x k) i - 2 * rsum s A (fun k => x k * y k) i + rsum s A (fun k => y k * y k) i.
Proof.
  rewrite (rsum_ext s A _ (fun k => 1 * (x k * x k) + (-2) * (x k * y k) + 1 * (y k * y k))) by (intros; ring). rewrite rsum_lin2. ring.
Qed.
Lemma dot_feas x y i : feas y -> rsum s A (fun k => x k * y k) i = rsum s A (fun k => pl d dN zm x k * y k) i.
Proof.
  intros H. pose proof (pl_orth_all x y i H) as O.
  rewrite (rsum_ext s A _ (fun k => 1 * (x k * y k) + (-1) * (pl d dN zm x k * y k) + 0 * 0)) in O by (intros; ring).
  rewrite (rsum_lin2 _ _ (fun _ => 0)) in O. lra.
Qed.
Lemma pn_nearest x y i : feas y -> rsum s A (fun k => y k * y k) i = 1 ->
  rsum s A (fun k => (x k - pn d dN dC s zm x k) * (x k - pn d dN dC s zm x k)) i <= rsum s A (fun k => (x k - y k) * (x k - y k)) i.
Proof.
  intros Hy Hu. rewrite !dist2, (dot_feas x y i Hy), (dot_feas x _ i (pn_feas x)), Hu.
  destruct (Req_EM_T (nrm2 x i) 0) as [E|E].
  - rewrite (rsum_0 s A (fun k => pl d dN zm x k * pn d dN dC s zm x k)) by (intros; rewrite (pn_zero x i E) by assumption; ring).
    rewrite (rsum_0 s A (fun k => pn d dN dC s zm x k * pn d dN dC s zm x k)) by (intros; rewrite (pn_zero x i E) by assumption; ring).
    rewrite (rsum_0 s A (fun k => pl d dN zm x k * y k)) by (intros; rewrite (rsum_sq_0 s A _ i E) by assumption; ring). lra.
  - rewrite (pn_norm x i E).
    rewrite (rsum_ext s A (fun k => pl d dN zm x k * pn d dN dC s zm x k) (fun k => pn d dN dC s zm x k * pl d dN zm x k)) by (intros; ring).
    rewrite pn_dot. fold (nrm2 x i). pose proof (nfac_sq x i E) as Q. pose proof (nfac_pos x i) as Pp. set (c := nfac d dN dC s zm x i) in *.
    replace (/ c * nrm2 x i) with c by (rewrite <- Q; field; lra).
    assert (CS : 0 <= rsum s A (fun k => (pl d dN zm x k - c * y k) * (pl d dN zm x k - c * y k)) i) by (apply rsum_nonneg; intros; apply Rle_0_sqr).
    rewrite (rsum_ext s A _ (fun k => 1 * (pl d dN zm x k * pl d dN zm x k) + (-2 * c) * (pl d dN zm x k * y k) + (c * c) * (y k * y k))) in CS by (intros; ring).
    rewrite rsum_lin2, Hu in CS. fold (nrm2 x i) in CS. set (e := rsum s A (fun k => pl d dN zm x k * y k) i) in *.
    assert (e <= c) by nra. lra.
Qed.
(** The result has unit norm as soon as some feasible direction is not orthogonal to the argument. *)
Lemma pn_unit_live x y i : feas y -> rsum s A (fun k => x k * y k) i <> 0 -> rsum s A (fun k => pn d dN dC s zm x k * pn d dN dC s zm x k) i = 1.
Proof.
  intros Hy H. apply pn_norm. intros E. apply H. rewrite (dot_feas x y i Hy). apply rsum_0. intros k H1 H2.
  rewrite (rsum_sq_0 s A _ i E k H1 H2). ring.
Qed.
Lemma pl_of_feas y : feas y -> forall i, pl d dN zm y i = y i.
Proof. intros [H1 H2] i. apply (pl_fix d dN s Hbox); [intros k _; apply H1|]. intros E. apply H2. exact E. Qed.
(** Feasible filters of unit norm, or zero, are left as they are. *)
Lemma pn_fix y i : feas y -> (forall ax, In ax A -> (i ax < s ax)%nat) -> (rsum s A (fun k => y k * y k) i = 1 \/ rsum s A (fun k => y k * y k) i = 0) -> pn d dN dC s zm y i = y i.
Proof.
  intros F Hi H. unfold pn. rewrite (pl_of_feas y F). unfold nfac. rewrite (rsum_ext s A _ (fun k => y k * y k)) by (intros; rewrite !(pl_of_feas y F); reflexivity).
  destruct H as [H|H]; rewrite H.
  - rewrite sqrt_1. destruct (Req_EM_T 1 0); lra.
  - rewrite (rsum_sq_0 s A y i H i Hi) by reflexivity. unfold Rdiv. ring.
Qed.
Lemma pn_ext x x' i : (forall k, in_spat dN s k = true -> x k = x' k) -> (forall ax, (ax < dN)%nat -> (i ax < s ax)%nat) -> pl d dN zm x i = pl d dN zm x' i.
Proof.
  intros H Hi. unfold pl. destruct (find (fun b => sel dN (dN + 2) b i) (boxes dN d)) as [b|] eqn:E; [|reflexivity].
  destruct (in_spat dN (bsz b) i); [|reflexivity]. rewrite (H i) by (apply in_spat_iff; intros ax Ha; apply in_seq in Ha; apply Hi; lia).
  destruct zm; [|reflexivity]. f_equal. f_equal. apply rsum_ext_in. intros k H1 _. apply H. apply in_spat_iff. intros ax Ha.
  specialize (H1 ax Ha). apply in_seq in Ha. pose proof (Hbox b (find_in d dN b i E) ax ltac:(lia)). lia.
Qed.
End pn.
