(** Lemmas about ndto2d and ndfrom2d. *)
Require Import List Arith ZArith Bool Lia Permutation Sorted.
Require Import Verif.NdIndex Verif.FlatModel Verif.FlatSpec.
Import ListNotations.
Local Open Scope nat_scope.

Definition perm_of (n : nat) (p : list nat) : Prop := length p = n /\ Forall (fun a => a < n) p /\ NoDup p.

Lemma pos_lt a l : In a l -> pos a l < length l.
Proof. induction l as [|b l IH]; simpl; intros H; [contradiction|]. destruct (Nat.eqb_spec a b) as [->|N]; [lia|]. destruct H as [->|H]; [congruence|]. specialize (IH H). lia. Qed.
Lemma nth_pos a l : In a l -> nth (pos a l) l 0 = a.
Proof. induction l as [|b l IH]; simpl; intros H; [contradiction|]. destruct (Nat.eqb_spec a b) as [->|N]; [reflexivity|]. destruct H as [->|H]; [congruence|]. apply IH, H. Qed.
Lemma pos_nth l k : NoDup l -> k < length l -> pos (nth k l 0) l = k.
Proof.
  intros H. revert k. induction H as [|b l Hb Hn IH]; intros k Hk; simpl in *; [lia|].
  destruct k as [|k]; [rewrite Nat.eqb_refl; reflexivity|].
  destruct (Nat.eqb_spec (nth k l 0) b) as [E|E]; [exfalso; apply Hb; rewrite <- E; apply nth_In; lia|]. rewrite IH by lia. reflexivity.
Qed.
Lemma perm_in n p a : perm_of n p -> a < n -> In a p.
Proof.
  intros (L & B & N) Ha. assert (I : incl (seq 0 n) p).
  { apply NoDup_length_incl; [exact N|rewrite seq_length; lia|]. intros x Hx. apply in_seq. rewrite Forall_forall in B. specialize (B x Hx). lia. }
  apply I, in_seq. lia.
Qed.
Lemma nodupb_spec l : nodupb l = true <-> NoDup l.
Proof.
  induction l as [|a l IH]; simpl; [split; [constructor|reflexivity]|].
  rewrite andb_true_iff, IH, negb_true_iff. split.
  - intros [H1 H2]. constructor; [|exact H2]. intros H. assert (existsb (Nat.eqb a) l = true) by (apply existsb_exists; exists a; split; [exact H|apply Nat.eqb_refl]). congruence.
  - intros H. inversion H as [|x y H1 H2]; subst. split; [|exact H2]. destruct (existsb (Nat.eqb a) l) eqn:E; [|reflexivity].
    apply existsb_exists in E. destruct E as (b & Hb & Eb). apply Nat.eqb_eq in Eb. subst b. contradiction.
Qed.
Lemma transpose_spec {A} (x : arr A) p y : transpose x p = Some y <->
  perm_of (length (shape x)) p /\ y = mkarr (map (fun a => nth a (shape x) 0) p) (fun idx => get x (orig p idx)).
Proof.
  unfold transpose, perm_of. destruct (Nat.eqb_spec (length p) (length (shape x))) as [E|E]; cbn [andb]; [|split; [discriminate|intros [[H _] _]; contradiction]].
  destruct (forallb _ p) eqn:F; cbn [andb].
  - rewrite forallb_forall in F. assert (B : Forall (fun a => a < length (shape x)) p) by (apply Forall_forall; intros a Ha; apply Nat.ltb_lt, F, Ha).
    destruct (nodupb p) eqn:D.
    + apply nodupb_spec in D. split; [intros [= <-]; auto | intros [_ ->]; reflexivity].
    + split; [discriminate|]. intros [(_ & _ & H) _]. apply nodupb_spec in H. congruence.
  - split; [discriminate|]. intros [(_ & H & _) _]. assert (forallb (fun a => a <? length (shape x)) p = true); [|congruence].
    apply forallb_forall. intros a Ha. rewrite Forall_forall in H. apply Nat.ltb_lt, H, Ha.
Qed.

Lemma NoDup_remove_all {A} (l1 l2 : list A) : NoDup (l1 ++ l2) -> NoDup l2.
Proof. induction l1 as [|a l1 IH]; simpl; intros H; [exact H|]. inversion H; auto. Qed.
Definition gather (p idx : list nat) : list nat := map (fun a => nth a idx 0) p.
Lemma orig_length p idx : length (orig p idx) = length p.
Proof. unfold orig. rewrite map_length, seq_length. reflexivity. Qed.
Lemma orig_nth p idx a : a < length p -> nth a (orig p idx) 0 = nth (pos a p) idx 0.
Proof.
  intros H. unfold orig. rewrite (nth_indep _ 0 (nth (pos 0 p) idx 0)) by (rewrite map_length, seq_length; exact H).
  rewrite (map_nth (fun a => nth (pos a p) idx 0)). rewrite seq_nth by exact H. reflexivity.
Qed.
Lemma gather_nth p idx k : k < length p -> nth k (gather p idx) 0 = nth (nth k p 0) idx 0.
Proof.
  intros H. unfold gather. rewrite (nth_indep _ 0 (nth 0 idx 0)) by (rewrite map_length; exact H).
  rewrite (map_nth (fun a => nth a idx 0)). reflexivity.
Qed.
Lemma list_ext (l l' : list nat) : length l = length l' -> (forall k, k < length l -> nth k l 0 = nth k l' 0) -> l = l'.
Proof. intros H K. apply (nth_ext l l' 0 0); assumption. Qed.
Lemma orig_gather n p idx : perm_of n p -> length idx = n -> orig p (gather p idx) = idx.
Proof.
  intros H Hi. pose proof H as (L & B & N). apply list_ext; [rewrite orig_length; congruence|]. intros k Hk. rewrite orig_length in Hk.
  rewrite orig_nth by exact Hk. assert (I : In k p) by (apply (perm_in n); [exact H|lia]).
  rewrite gather_nth by (apply pos_lt, I). rewrite nth_pos by exact I. reflexivity.
Qed.
Lemma gather_orig n p idx : perm_of n p -> length idx = n -> gather p (orig p idx) = idx.
Proof.
  intros H Hi. pose proof H as (L & B & N). apply list_ext; [unfold gather; rewrite map_length; congruence|]. intros k Hk. unfold gather in Hk. rewrite map_length in Hk.
  rewrite gather_nth by exact Hk. rewrite Forall_forall in B. rewrite orig_nth by (rewrite L; apply B, nth_In, Hk). rewrite pos_nth by assumption. reflexivity.
Qed.
Lemma inb_nth s idx : inb s idx <-> length idx = length s /\ forall a, a < length s -> nth a idx 0 < nth a s 0.
Proof.
  revert idx. induction s as [|n s IH]; intros [|i idx]; simpl.
  - split; [intros _; split; [reflexivity|intros; lia]|constructor].
  - split; [intros H; inversion H|intros [H _]; discriminate].
  - split; [intros H; inversion H|intros [H _]; discriminate].
  - rewrite inb_cons, IH. split.
    + intros (H1 & H2 & H3). split; [lia|]. intros [|a] Ha; [exact H1|apply H3; lia].
    + intros (H1 & H2). split; [apply (H2 0); lia|]. split; [lia|]. intros a Ha. apply (H2 (S a)). lia.
Qed.
Lemma gather_inb p s idx : perm_of (length s) p -> inb s idx -> inb (gather p s) (gather p idx).
Proof.
  intros (L & B & N) H. apply inb_nth in H. destruct H as [H1 H2]. apply inb_nth. unfold gather at 1 2 3. rewrite !map_length. split; [reflexivity|].
  intros a Ha. rewrite !gather_nth by exact Ha. apply H2. rewrite Forall_forall in B. apply B, nth_In, Ha.
Qed.
Lemma orig_inb p s idx : perm_of (length s) p -> inb (gather p s) idx -> inb s (orig p idx).
Proof.
  intros H Hi. pose proof H as (L & B & N). apply inb_nth in Hi. destruct Hi as [H1 H2]. unfold gather in H1, H2 at 1. rewrite map_length in H1, H2.
  apply inb_nth. rewrite orig_length. split; [exact L|]. intros a Ha. rewrite orig_nth by lia.
  assert (I : In a p) by (apply (perm_in _ _ _ H Ha)). pose proof (pos_lt _ _ I) as P. specialize (H2 _ P). rewrite gather_nth, nth_pos in H2 by assumption. exact H2.
Qed.
Lemma unravel_app s1 s2 r q : r < prod s1 -> q < prod s2 -> unravel (s1 ++ s2) (r * prod s2 + q) = unravel s1 r ++ unravel s2 q.
Proof.
  intros Hr Hq. pose proof (unravel_inb s1 r Hr) as I1. pose proof (unravel_inb s2 q Hq) as I2.
  rewrite <- (ravel_unravel s1 r Hr) at 1. rewrite <- (ravel_unravel s2 q Hq) at 1.
  rewrite <- ravel_app by (apply inb_length; exact I1). apply unravel_ravel. apply inb_app; [apply inb_length; exact I1|]. auto.
Qed.

(** argsort *)
Lemma ins_pos_perm key p l : Permutation (ins_pos key p l) (p :: l).
Proof. induction l as [|q l IH]; simpl; [constructor; constructor|]. destruct (Nat.leb _ _); [reflexivity|]. rewrite IH. apply perm_swap. Qed.
Lemma argsort_perm l : Permutation (argsort l) (seq 0 (length l)).
Proof. unfold argsort. generalize (seq 0 (length l)) as s. induction s as [|p s IH]; simpl; [constructor|]. rewrite ins_pos_perm, IH. reflexivity. Qed.
Lemma ins_pos_sorted key p l : StronglySorted (fun a b => key a <= key b) l -> StronglySorted (fun a b => key a <= key b) (ins_pos key p l).
Proof.
  induction 1 as [|q l H IH Hq]; simpl; [repeat constructor|].
  destruct (Nat.leb_spec (key p) (key q)) as [E|E].
  - constructor; [constructor; assumption|]. constructor; [exact E|]. rewrite Forall_forall in *. intros x Hx. specialize (Hq x Hx). lia.
  - constructor; [exact IH|]. rewrite Forall_forall in *. intros x Hx. apply (Permutation_in _ (ins_pos_perm key p l)) in Hx. destruct Hx as [<-|Hx]; [lia|apply Hq, Hx].
Qed.
Lemma argsort_sorted l : StronglySorted (fun a b => nth a l 0 <= nth b l 0) (argsort l).
Proof. unfold argsort. generalize (seq 0 (length l)) as s. induction s as [|p s IH]; simpl; [constructor|]. apply ins_pos_sorted, IH. Qed.
Lemma sorted_map (key : nat -> nat) l : StronglySorted (fun a b => key a <= key b) l -> StronglySorted le (map key l).
Proof. induction 1 as [|q l H IH Hq]; simpl; constructor; [exact IH|]. rewrite Forall_forall in *. intros x Hx. apply in_map_iff in Hx. destruct Hx as (y & <- & Hy). apply Hq, Hy. Qed.
Lemma seq_sorted a n : StronglySorted le (seq a n).
Proof. revert a. induction n as [|n IH]; intros a; simpl; constructor; [apply IH|]. apply Forall_forall. intros x Hx. apply in_seq in Hx. lia. Qed.
Lemma sorted_unique l l' : StronglySorted le l -> StronglySorted le l' -> Permutation l l' -> l = l'.
Proof.
  intros H. revert l'. induction H as [|a l H IH Ha]; intros l' H' P; [symmetry; apply Permutation_nil, P|].
  destruct H' as [|b l' H' Hb]; [apply Permutation_sym, Permutation_nil in P; discriminate|].
  rewrite Forall_forall in Ha, Hb.
  assert (a = b).
  { assert (I1 : In a (b :: l')) by (apply (Permutation_in _ P); left; reflexivity).
    assert (I2 : In b (a :: l)) by (apply (Permutation_in _ (Permutation_sym P)); left; reflexivity).
    destruct I1 as [->|I1]; [reflexivity|]. destruct I2 as [->|I2]; [reflexivity|]. specialize (Ha b I2). specialize (Hb a I1). lia. }
  subst b. f_equal. apply IH; [exact H'|]. apply Permutation_cons_inv in P. exact P.
Qed.
Lemma perm_of_seq n p : perm_of n p -> Permutation p (seq 0 n).
Proof.
  intros H. pose proof H as (L & B & N). apply NoDup_Permutation; [exact N|apply seq_NoDup|]. intros x. rewrite in_seq. rewrite Forall_forall in B.
  split; [intros Hx; specialize (B x Hx); lia|intros Hx; apply (perm_in n); [exact H|lia]].
Qed.
Lemma map_nth_seq (l : list nat) : map (fun p => nth p l 0) (seq 0 (length l)) = l.
Proof.
  apply list_ext; [rewrite map_length, seq_length; reflexivity|]. intros k Hk. rewrite map_length, seq_length in Hk.
  rewrite (nth_indep _ 0 (nth 0 l 0)) by (rewrite map_length, seq_length; exact Hk). rewrite (map_nth (fun p => nth p l 0)), seq_nth by exact Hk. reflexivity.
Qed.
Lemma argsort_inverse n p : perm_of n p -> argsort p = map (fun a => pos a p) (seq 0 n).
Proof.
  intros H. pose proof H as (L & B & N).
  assert (E : map (fun k => nth k p 0) (argsort p) = seq 0 n).
  { apply sorted_unique; [apply sorted_map, argsort_sorted|apply seq_sorted|]. rewrite (Permutation_map (fun k => nth k p 0) (argsort_perm p)), map_nth_seq. apply perm_of_seq, H. }
  rewrite <- E, map_map. symmetry. rewrite <- (map_id (argsort p)) at 2. apply map_ext_in. intros k Hk.
  apply (Permutation_in _ (argsort_perm p)) in Hk. apply in_seq in Hk. apply pos_nth; [exact N|lia].
Qed.
Lemma perm_argsort n p : perm_of n p -> perm_of n (argsort p).
Proof.
  intros (L & B & N). pose proof (argsort_perm p) as P. split; [rewrite (Permutation_length P), seq_length; exact L|]. split.
  - apply Forall_forall. intros a Ha. apply (Permutation_in _ P), in_seq in Ha. lia.
  - apply (Permutation_NoDup (Permutation_sym P)), seq_NoDup.
Qed.
Lemma orig_argsort n p idx : perm_of n p -> length idx = n -> orig (argsort p) idx = gather p idx.
Proof.
  intros H Hi. pose proof (perm_argsort n p H) as H'. pose proof H as (L & B & N). pose proof H' as (L' & B' & N').
  apply list_ext; [rewrite orig_length; unfold gather; rewrite map_length; congruence|]. intros k Hk. rewrite orig_length in Hk.
  rewrite orig_nth by exact Hk. rewrite gather_nth by lia. f_equal.
  rewrite Forall_forall in B. assert (Hb : nth k p 0 < n) by (apply B, nth_In; lia).
  rewrite <- (pos_nth (argsort p) (nth k p 0) N' ltac:(lia)). f_equal.
  rewrite (argsort_inverse n p H). rewrite (nth_indep _ 0 (pos 0 p)) by (rewrite map_length, seq_length; exact Hb).
  rewrite (map_nth (fun a => pos a p)), seq_nth by exact Hb. simpl. symmetry. apply pos_nth; [exact N|lia].
Qed.

(** ndto2d *)
Section nd.
Variable setorder : list nat -> list nat.
Hypothesis Hso : forall l, Permutation (setorder l) l.
Notation ndto2d := (ndto2d setorder).
Definition rest (nd : nat) (ax : list Z) : list nat := setorder (filter (fun a => negb (existsb (Z.eqb (Z.of_nat a)) ax)) (seq 0 nd)).
Lemma rest_in nd ax a : In a (rest nd ax) <-> a < nd /\ ~ In (Z.of_nat a) ax.
Proof.
  unfold rest. split.
  - intros H. apply (Permutation_in _ (Hso _)), filter_In in H. destruct H as [H1 H2]. apply in_seq in H1. split; [lia|]. intros H.
    apply negb_true_iff in H2. assert (existsb (Z.eqb (Z.of_nat a)) ax = true); [|congruence]. apply existsb_exists. exists (Z.of_nat a). split; [exact H|apply Z.eqb_refl].
  - intros [H1 H2]. apply (Permutation_in _ (Permutation_sym (Hso _))), filter_In. split; [apply in_seq; lia|]. apply negb_true_iff.
    destruct (existsb _ ax) eqn:E; [|reflexivity]. apply existsb_exists in E. destruct E as (b & Hb & Eb). apply Z.eqb_eq in Eb. subst b. contradiction.
Qed.
Lemma rest_nodup nd ax : NoDup (rest nd ax).
Proof. apply (Permutation_NoDup (Permutation_sym (Hso _))). apply NoDup_filter, seq_NoDup. Qed.

(** The result of a successful call. *)
Lemma ndto2d_inv {A} (x : arr A) axis y rsi : ndto2d x axis = Ok (y, rsi) ->
  exists c ax, ax = map Z.to_nat (normaxis (length (shape x)) axis) /\ perm_of (length (shape x)) (c ++ ax) /\ 0 < length c /\
    0 < prod (gather c (shape x)) /\ rsi = (gather (c ++ ax) (shape x), c ++ ax) /\
    y = reshape (mkarr (gather (c ++ ax) (shape x)) (fun idx => get x (orig (c ++ ax) idx))) [prod (gather c (shape x)); prod (gather ax (shape x))].
Proof.
  unfold FlatModel.ndto2d. set (nd := length (shape x)). set (az := normaxis nd axis). fold (rest nd az). set (c := rest nd az). set (ax := map Z.to_nat az).
  destruct (forallb (Z.leb 0) az); [|discriminate].
  destruct (transpose x (c ++ ax)) as [xt|] eqn:ET; [|discriminate]. apply transpose_spec in ET. destruct ET as [HP ->]. cbn [shape].
  fold (gather (c ++ ax) (shape x)).
  assert (F : firstn (length c) (gather (c ++ ax) (shape x)) = gather c (shape x)).
  { unfold gather. rewrite map_app, firstn_app, map_length, Nat.sub_diag. simpl. rewrite app_nil_r. rewrite <- (map_length (fun a => nth a (shape x) 0) c) at 1. apply firstn_all. }
  rewrite F. destruct (gather c (shape x)) as [|d l] eqn:G; [discriminate|]. rewrite <- G.
  destruct (Nat.eqb_spec (prod (gather c (shape x))) 0) as [E|E]; [discriminate|]. intros H. injection H as <- <-.
  exists c, ax. split; [reflexivity|]. split; [exact HP|]. split; [destruct c; [discriminate|simpl; lia]|]. split; [lia|]. split; [reflexivity|].
  f_equal. f_equal. unfold gather at 1. rewrite map_app. change (map (fun a => nth a (shape x) 0)) with (fun p => gather p (shape x)). cbv beta. rewrite prod_app.
  rewrite Nat.mul_comm, Nat.div_mul by exact E. reflexivity.
Qed.
Lemma ravel2 P Q r q : ravel [P; Q] [r; q] = r * Q + q.
Proof. cbn [ravel prod]. lia. Qed.
Definition from (c ax s : list nat) (r q : nat) : list nat := orig (c ++ ax) (unravel (gather c s) r ++ unravel (gather ax s) q).

Lemma nth_unravel_eq s r r' : r < prod s -> r' < prod s -> (forall k, k < length s -> nth k (unravel s r) 0 = nth k (unravel s r') 0) -> r = r'.
Proof.
  intros H H' K. rewrite <- (ravel_unravel s r H), <- (ravel_unravel s r' H'). f_equal.
  pose proof (inb_length _ _ (unravel_inb s r H)) as L. pose proof (inb_length _ _ (unravel_inb s r' H')) as L'.
  apply list_ext; [congruence|]. intros k Hk. apply K. lia.
Qed.
Lemma gather_length p s : length (gather p s) = length p. Proof. apply map_length. Qed.
Lemma from_nth c ax s r q k : perm_of (length s) (c ++ ax) -> r < prod (gather c s) -> q < prod (gather ax s) -> k < length (c ++ ax) ->
  nth (nth k (c ++ ax) 0) (from c ax s r q) 0 = if Nat.ltb k (length c) then nth k (unravel (gather c s) r) 0 else nth (k - length c) (unravel (gather ax s) q) 0.
Proof.
  intros (L & B & N) Hr Hq Hk. unfold from. rewrite Forall_forall in B. rewrite orig_nth by (rewrite L; apply B, nth_In, Hk). rewrite pos_nth by assumption.
  pose proof (inb_length _ _ (unravel_inb _ _ Hr)) as L1. rewrite gather_length in L1.
  destruct (Nat.ltb_spec k (length c)) as [E|E]; [apply app_nth1; lia|]. rewrite app_nth2 by lia. rewrite L1. reflexivity.
Qed.
Lemma flat_from {A} (x : arr A) c ax : perm_of (length (shape x)) (c ++ ax) ->
  flattened x (reshape (mkarr (gather (c ++ ax) (shape x)) (fun idx => get x (orig (c ++ ax) idx))) [prod (gather c (shape x)); prod (gather ax (shape x))]) ax (from c ax (shape x)).
Proof.
  intros HP. set (s := shape x) in *.
  pose proof HP as (L & B & N). exists (prod (gather c s)), (prod (gather ax s)). split; [reflexivity|].
  assert (GA : gather (c ++ ax) s = gather c s ++ gather ax s) by apply map_app.
  split; [|split].
  - intros r q Hr Hq. split.
    + apply orig_inb; [exact HP|]. fold s. rewrite GA. apply inb_app; [apply inb_length, unravel_inb, Hr|]. split; apply unravel_inb; assumption.
    + unfold reshape. cbn [get shape]. rewrite ravel2. rewrite GA, unravel_app by assumption. reflexivity.
  - intros idx Hi. pose proof (gather_inb _ _ _ HP Hi) as G. rewrite GA in G. unfold gather in G at 3. rewrite map_app in G. change (map (fun a => nth a idx 0)) with (fun p => gather p idx) in G. cbv beta in G.
    apply inb_app in G; [|rewrite !gather_length; reflexivity]. destruct G as [G1 G2].
    exists (ravel (gather c s) (gather c idx)), (ravel (gather ax s) (gather ax idx)). split; [apply ravel_lt, G1|]. split; [apply ravel_lt, G2|].
    unfold from. rewrite !unravel_ravel by assumption. unfold gather. rewrite <- map_app. apply (orig_gather (length s)); [exact HP|apply inb_length, Hi].
  - intros r q r' q' Hr Hq Hr' Hq'. split; split.
    + intros <- a Ha. destruct (lt_dec a (length s)) as [Hl|Hl].
      * pose proof (perm_in _ _ _ HP Hl) as I. rewrite <- (nth_pos a _ I). pose proof (pos_lt _ _ I) as P.
        rewrite !from_nth by assumption. apply in_app_or in I. destruct I as [I|I]; [|contradiction].
        assert (Hpc : pos a (c ++ ax) < length c).
        { clear -I. induction c as [|b c IH]; simpl in *; [contradiction|]. destruct (Nat.eqb_spec a b); [lia|]. destruct I as [->|I]; [congruence|]. specialize (IH I). lia. }
        rewrite (proj2 (Nat.ltb_lt _ _) Hpc). reflexivity.
      * rewrite !nth_overflow; [reflexivity| |]; unfold from; rewrite orig_length; lia.
    + intros K. apply (nth_unravel_eq (gather c s)); [assumption..|]. intros k Hk. rewrite gather_length in Hk.
      assert (Hk' : k < length (c ++ ax)) by (rewrite app_length; lia).
      specialize (K (nth k (c ++ ax) 0)). rewrite !from_nth, (proj2 (Nat.ltb_lt _ _) Hk) in K by assumption. apply K.
      rewrite app_nth1 by exact Hk. intros I. rewrite <- (app_nth1 c ax 0 Hk) in I.
      apply (In_nth _ _ 0) in I. destruct I as (j & Hj & Ej). rewrite <- (app_nth2_plus c ax 0 j) in Ej.
      apply (proj1 (NoDup_nth (c ++ ax) 0) N) in Ej; [lia|rewrite app_length; lia|exact Hk'].
    + intros <- a Ha. destruct (lt_dec a (length s)) as [Hl|Hl].
      * pose proof (perm_in _ _ _ HP Hl) as I. rewrite <- (nth_pos a _ I). pose proof (pos_lt _ _ I) as P.
        rewrite !from_nth by assumption. destruct (Nat.ltb_spec (pos a (c ++ ax)) (length c)) as [E|E]; [|reflexivity]. exfalso.
        apply (In_nth _ _ 0) in Ha. destruct Ha as (j & Hj & Ej). rewrite <- (app_nth2_plus c ax 0 j) in Ej.
        rewrite <- Ej in E. rewrite pos_nth in E; [lia|exact N|rewrite app_length; lia].
      * rewrite !nth_overflow; [reflexivity| |]; unfold from; rewrite orig_length; lia.
    + intros K. apply (nth_unravel_eq (gather ax s)); [assumption..|]. intros k Hk. rewrite gather_length in Hk.
      assert (Hk' : length c + k < length (c ++ ax)) by (rewrite app_length; lia).
      specialize (K (nth (length c + k) (c ++ ax) 0)). rewrite !from_nth in K by assumption.
      rewrite (proj2 (Nat.ltb_ge (length c + k) (length c)) ltac:(lia)) in K. replace (length c + k - length c) with k in K by lia. apply K.
      rewrite app_nth2_plus. apply nth_In, Hk.
Qed.

Lemma ndto2d_flattened {A} (x : arr A) axis y rsi : ndto2d x axis = Ok (y, rsi) ->
  exists phi, flattened x y (map Z.to_nat (normaxis (length (shape x)) axis)) phi.
Proof.
  intros H. destruct (ndto2d_inv x axis y rsi H) as (c & ax & EA & HP & Hc & Hpos & -> & ->). rewrite <- EA. eexists. apply flat_from, HP.
Qed.
Lemma inv_shape s prm : perm_of (length s) prm -> map (fun a => nth a (gather prm s) 0) (argsort prm) = s.
Proof.
  intros HP. pose proof (perm_argsort _ _ HP) as (LI & _ & _).
  apply list_ext; [rewrite map_length; exact LI|]. intros k Hk. rewrite map_length, LI in Hk.
  fold (gather (argsort prm) (gather prm s)). rewrite gather_nth by lia.
  assert (EK : nth k (argsort prm) 0 = pos k prm).
  { rewrite (argsort_inverse _ _ HP). rewrite (nth_indep _ 0 (pos 0 prm)) by (rewrite map_length, seq_length; exact Hk).
    rewrite (map_nth (fun a => pos a prm)), seq_nth by exact Hk. reflexivity. }
  rewrite EK. pose proof (perm_in _ _ _ HP Hk) as I. rewrite gather_nth by (apply pos_lt, I). rewrite nth_pos by exact I. reflexivity.
Qed.

Lemma roundtrip {A} (x : arr A) axis y rsi : ndto2d x axis = Ok (y, rsi) ->
  exists z, ndfrom2d y rsi = Some z /\ shape z = shape x /\ forall idx, inb (shape x) idx -> get z idx = get x idx.
Proof.
  intros H. destruct (ndto2d_inv x axis y rsi H) as (c & ax & EA & HP & Hc & Hpos & -> & ->). clear H EA. set (s := shape x) in *. set (prm := c ++ ax) in *.
  pose proof HP as (L & B & N). pose proof (perm_argsort _ _ HP) as HI. pose proof HI as (LI & _ & _).
  unfold ndfrom2d. eexists. split.
  - apply transpose_spec. cbn [reshape shape]. rewrite gather_length, L. split; [exact HI|reflexivity].
  - cbn [shape]. split.
    + cbn [reshape shape]. apply (inv_shape s prm HP).
    + intros idx Hi. cbn [get]. rewrite (orig_argsort _ _ _ HP (inb_length _ _ Hi)).
      unfold reshape. cbn [get shape].
      pose proof (gather_inb _ _ _ HP Hi) as G. pose proof (ravel_lt _ _ G) as RL.
      assert (EP : prod (gather prm s) = prod [prod (gather c s); prod (gather ax s)]).
      { unfold prm, gather. rewrite map_app, prod_app. cbn [prod]. lia. }
      rewrite ravel_unravel by (rewrite <- EP; exact RL). rewrite unravel_ravel by exact G. rewrite (orig_gather _ _ _ HP (inb_length _ _ Hi)). reflexivity.
Qed.

(** Exactly when the call succeeds. *)
Lemma normaxis_valid nd axis : (forall k, In k axis -> (- Z.of_nat nd <= k < Z.of_nat nd)%Z) <-> Forall (fun k => (0 <= k < Z.of_nat nd)%Z) (normaxis nd axis) /\ Forall (fun k => (k < 0 -> - Z.of_nat nd <= k)%Z) axis.
Proof.
  unfold normaxis. rewrite !Forall_forall. split.
  - intros H. split; [|intros k Hk Hn; apply H, Hk]. intros k Hk. apply in_map_iff in Hk. destruct Hk as (j & <- & Hj). specialize (H j Hj). destruct (Z.leb_spec 0 j); lia.
  - intros [H1 H2] k Hk. specialize (H1 (if (0 <=? k)%Z then k else (Z.of_nat nd + k)%Z)). specialize (H2 k Hk).
    assert (I : In (if (0 <=? k)%Z then k else (Z.of_nat nd + k)%Z) (map (fun k => if (0 <=? k)%Z then k else (Z.of_nat nd + k)%Z) axis)) by (apply in_map_iff; exists k; auto).
    specialize (H1 I). destruct (Z.leb_spec 0 k); lia.
Qed.
Lemma rest_perm nd ax : Forall (fun k => (0 <= k < Z.of_nat nd)%Z) ax -> NoDup ax -> perm_of nd (rest nd ax ++ map Z.to_nat ax).
Proof.
  intros B N. rewrite Forall_forall in B.
  assert (NM : NoDup (map Z.to_nat ax)).
  { clear -B N. induction N as [|a ax Ha N IH]; simpl; constructor.
    - intros I. apply in_map_iff in I. destruct I as (b & E & Hb). assert (b = a); [|subst; contradiction].
      pose proof (B a (or_introl eq_refl)). pose proof (B b (or_intror Hb)). lia.
    - apply IH. intros b Hb. apply B. right. exact Hb. }
  assert (ND : NoDup (rest nd ax ++ map Z.to_nat ax)).
  { apply NoDup_app_iff_aux; [apply rest_nodup|exact NM|]. intros a H1 H2. apply rest_in in H1. destruct H1 as [_ H1]. apply H1.
    apply in_map_iff in H2. destruct H2 as (b & E & Hb). pose proof (B b Hb). rewrite <- E, Z2Nat.id by lia. exact Hb. }
  assert (BD : Forall (fun a => a < nd) (rest nd ax ++ map Z.to_nat ax)).
  { apply Forall_forall. intros a Ha. apply in_app_or in Ha. destruct Ha as [Ha|Ha]; [apply rest_in in Ha; lia|]. apply in_map_iff in Ha. destruct Ha as (b & <- & Hb). specialize (B b Hb). lia. }
  split; [|split; assumption].
  transitivity (length (seq 0 nd)); [apply Permutation_length|apply seq_length]. apply NoDup_Permutation; [exact ND|apply seq_NoDup|]. intros a. rewrite in_seq. rewrite Forall_forall in BD. split; [intros Ha; specialize (BD a Ha); lia|].
  intros Ha. apply in_or_app. destruct (in_dec Z.eq_dec (Z.of_nat a) ax) as [I|I]; [right; apply in_map_iff; exists (Z.of_nat a); split; [apply Nat2Z.id|exact I]|left; apply rest_in; split; [lia|exact I]].
Qed.
Lemma prod_pos l : 0 < prod l <-> Forall (fun n => 0 < n) l.
Proof. induction l as [|n l IH]; simpl; [split; [constructor|lia]|]. rewrite Forall_cons_iff, <- IH. nia. Qed.
Lemma accepts {A} (x : arr A) axis :
  (exists y rsi, ndto2d x axis = Ok (y, rsi)) <->
  let nd := length (shape x) in let ax := normaxis nd axis in
  (forall k, In k axis -> (- Z.of_nat nd <= k < Z.of_nat nd)%Z) /\ NoDup ax /\ length axis < nd /\
  (forall a, a < nd -> ~ In (Z.of_nat a) ax -> 0 < nth a (shape x) 0).
Proof.
  cbv zeta. unfold FlatModel.ndto2d. set (nd := length (shape x)). set (az := normaxis nd axis). fold (rest nd az). set (c := rest nd az). set (ax := map Z.to_nat az).
  assert (F : firstn (length c) (gather (c ++ ax) (shape x)) = gather c (shape x)).
  { unfold gather. rewrite map_app, firstn_app, map_length, Nat.sub_diag. simpl. rewrite app_nil_r. rewrite <- (map_length (fun a => nth a (shape x) 0) c) at 1. apply firstn_all. }
  assert (Laz : length az = length axis) by apply map_length.
  split.
  - intros (y & rsi & H). destruct (forallb (Z.leb 0) az) eqn:FB; [|discriminate]. rewrite forallb_forall in FB.
    destruct (transpose x (c ++ ax)) as [xt|] eqn:ET; [|discriminate]. apply transpose_spec in ET. destruct ET as [HP ->]. cbn [shape] in H.
    fold (gather (c ++ ax) (shape x)) in H. rewrite F in H. destruct (gather c (shape x)) as [|d l] eqn:G; [discriminate|]. rewrite <- G in H.
    destruct (Nat.eqb_spec (prod (gather c (shape x))) 0) as [E|E]; [discriminate|]. clear H.
    destruct HP as (L & B & N). fold nd in L, B. rewrite Forall_forall in B.
    assert (Baz : forall k, In k az -> (0 <= k < Z.of_nat nd)%Z).
    { intros k Hk. pose proof (FB k Hk) as Q. apply Z.leb_le in Q. assert (Z.to_nat k < nd) by (apply B, in_or_app; right; apply in_map, Hk). lia. }
    split; [|split; [|split]].
    + intros k Hk. assert (I : In (if (0 <=? k)%Z then k else (Z.of_nat nd + k)%Z) az) by (apply in_map_iff; exists k; auto). specialize (Baz _ I). destruct (Z.leb_spec 0 k); lia.
    + apply (NoDup_map_inv Z.to_nat). fold ax. apply NoDup_remove_all with (l1 := c). exact N.
    + rewrite app_length in L. unfold ax in L. rewrite map_length, Laz in L. assert (0 < length c) by (destruct c; [discriminate|simpl; lia]). lia.
    + intros a Ha HI. assert (I : In a c) by (apply rest_in; auto). assert (PP : 0 < prod (gather c (shape x))) by lia. apply prod_pos in PP. rewrite Forall_forall in PP. apply PP. apply in_map_iff. exists a. auto.
  - intros (H1 & H2 & H3 & H4).
    assert (Baz : Forall (fun k => (0 <= k < Z.of_nat nd)%Z) az).
    { apply Forall_forall. intros k Hk. apply in_map_iff in Hk. destruct Hk as (j & <- & Hj). specialize (H1 j Hj). destruct (Z.leb_spec 0 j); lia. }
    pose proof (rest_perm nd az Baz H2) as HP. fold c ax in HP.
    replace (forallb (Z.leb 0) az) with true by (symmetry; apply forallb_forall; rewrite Forall_forall in Baz; intros k Hk; apply Z.leb_le; apply Baz, Hk).
    destruct (transpose x (c ++ ax)) as [xt|] eqn:ET.
    2:{ pose proof (proj2 (transpose_spec x (c ++ ax) _) (conj HP eq_refl)) as Q. congruence. }
    apply transpose_spec in ET. destruct ET as [_ ->]. cbn [shape]. fold (gather (c ++ ax) (shape x)). rewrite F.
    destruct (gather c (shape x)) as [|d l] eqn:G.
    + exfalso. destruct HP as (L & _ & _). rewrite app_length in L. unfold ax in L. rewrite map_length, Laz in L. destruct c; [simpl in L; lia|discriminate].
    + rewrite <- G. destruct (Nat.eqb_spec (prod (gather c (shape x))) 0) as [E|E]; [|eexists _, _; reflexivity]. exfalso.
      assert (0 < prod (gather c (shape x))); [|lia]. apply prod_pos. apply Forall_forall. intros m Hm. apply in_map_iff in Hm. destruct Hm as (a & <- & Ha). apply rest_in in Ha. destruct Ha. apply H4; assumption.
Qed.
Lemma all_axes {A} (x : arr A) axis : Permutation (normaxis (length (shape x)) axis) (map Z.of_nat (seq 0 (length (shape x)))) ->
  ndto2d x axis = TypeErr.
Proof.
  unfold FlatModel.ndto2d. set (nd := length (shape x)). set (az := normaxis nd axis). intros P. fold (rest nd az). set (c := rest nd az). set (ax := map Z.to_nat az).
  assert (IA : forall k, In k az <-> exists a, a < nd /\ k = Z.of_nat a).
  { intros k. split.
    - intros H. apply (Permutation_in _ P), in_map_iff in H. destruct H as (a & <- & Ha). apply in_seq in Ha. exists a. split; [lia|reflexivity].
    - intros (a & Ha & ->). apply (Permutation_in _ (Permutation_sym P)), in_map_iff. exists a. split; [reflexivity|apply in_seq; lia]. }
  assert (Baz : Forall (fun k => (0 <= k < Z.of_nat nd)%Z) az) by (apply Forall_forall; intros k Hk; apply IA in Hk; destruct Hk as (a & Ha & ->); lia).
  assert (Naz : NoDup az) by (apply (Permutation_NoDup (Permutation_sym P)), FinFun.Injective_map_NoDup; [intros a b E; lia|apply seq_NoDup]).
  assert (Ec : c = []).
  { destruct c as [|a l] eqn:E; [reflexivity|]. exfalso. assert (I : In a (rest nd az)) by (fold c; rewrite E; left; reflexivity). apply rest_in in I. destruct I as [I1 I2]. apply I2, IA. exists a. auto. }
  pose proof (rest_perm nd az Baz Naz) as HP. fold c ax in HP.
  replace (forallb (Z.leb 0) az) with true by (symmetry; apply forallb_forall; rewrite Forall_forall in Baz; intros k Hk; apply Z.leb_le; apply Baz, Hk).
  destruct (transpose x (c ++ ax)) as [xt|] eqn:ET.
  2:{ pose proof (proj2 (transpose_spec x (c ++ ax) _) (conj HP eq_refl)) as Q. congruence. }
  rewrite Ec. reflexivity.
Qed.
End nd.
