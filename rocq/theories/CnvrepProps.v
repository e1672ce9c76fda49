(** C30: array layouts; C66: layouts of weight and mask arrays. *)
Require Import List Arith ZArith Bool Lia.
Require Import Verif.CnvrepModel.
Import ListNotations.
Local Open Scope nat_scope.

(** ** Specification *)
(** The documented meanings of the axes of a signal array: spatial axes, an optional channel axis, an optional signal
    axis; and of a dictionary array: spatial axes, an optional channel axis, a filter axis. *)
Definition opt_axis (o : option nat) : list nat := match o with None => [] | Some n => [n] end.
Definition sig_shape (nv : list nat) (c k : option nat) : list nat := nv ++ opt_axis c ++ opt_axis k.
Definition dic_shape (dv : list nat) (c : option nat) (m : nat) : list nat := dv ++ opt_axis c ++ [m].
Definition size_of (o : option nat) : nat := match o with None => 1 | Some n => n end.

(** Which reading of the axes of a signal array the documentation prescribes. *)
Definition prescribed (dc c k : option nat) (dK : option Z) : Prop :=
  match c, k with
  | None, None | Some _, Some _ => match dK with None => True | Some z => z = (if k then 1 else 0)%Z end
  | Some _, None => match dK with None => dc <> None | Some z => z = 0%Z end
  | None, Some _ => match dK with None => dc = None | Some z => z = 1%Z end
  end.

(** Two sizes are compatible for multiplication of arrays, and the resulting size. *)
Definition bcast (a b : nat) : option nat := if Nat.eqb a b then Some a else if Nat.eqb a 1 then Some b else if Nat.eqb b 1 then Some a else None.
Fixpoint bcasts (a b : list nat) : option (list nat) :=
  match a, b with
  | [], [] => Some []
  | x :: r, y :: t => match bcast x y, bcasts r t with Some z, Some l => Some (z :: l) | _, _ => None end
  | _, _ => None
  end.

Lemma pyidx_app_l (a b : list nat) (x : nat) : pyidx (a ++ x :: b) (Z.of_nat (length a)) = Ok x.
Proof.
  unfold pyidx. replace (Z.of_nat (length a) <? 0)%Z with false by (symmetry; apply Z.ltb_ge; lia).
  replace (Z.of_nat (length a) <? 0)%Z with false by (symmetry; apply Z.ltb_ge; lia).
  rewrite Nat2Z.id, nth_error_app2, Nat.sub_diag by lia. reflexivity.
Qed.
Lemma pyidx_last (a : list nat) (x : nat) : pyidx (a ++ [x]) (-1) = Ok x.
Proof.
  unfold pyidx. change (-1 <? 0)%Z with true. cbv iota zeta. rewrite app_length. cbn [length].
  replace (-1 + Z.of_nat (length a + 1))%Z with (Z.of_nat (length a)) by lia.
  replace (Z.of_nat (length a) <? 0)%Z with false by (symmetry; apply Z.ltb_ge; lia).
  rewrite Nat2Z.id, nth_error_app2, Nat.sub_diag by lia. reflexivity.
Qed.
Lemma pyidx_last2 (a : list nat) (x y : nat) : pyidx (a ++ [x; y]) (-2) = Ok x.
Proof.
  unfold pyidx. change (-2 <? 0)%Z with true. cbv iota zeta. rewrite app_length. cbn [length].
  replace (-2 + Z.of_nat (length a + 2))%Z with (Z.of_nat (length a)) by lia.
  replace (Z.of_nat (length a) <? 0)%Z with false by (symmetry; apply Z.ltb_ge; lia).
  rewrite Nat2Z.id, nth_error_app2, Nat.sub_diag by lia. reflexivity.
Qed.
Lemma firstn_app_len {A} (a b : list A) n : n = length a -> firstn n (a ++ b) = a.
Proof. intros ->. rewrite firstn_app, Nat.sub_diag, firstn_all. simpl. apply app_nil_r. Qed.

Lemma infer_ok (dc c k : option nat) (dK : option Z) (nv : list nat) (dCd : Z) :
  prescribed dc c k dK -> dCd = (match dc with None => 0 | Some _ => 1 end)%Z ->
  infer_dims (length (sig_shape nv c k)) (length nv) dCd dK =
  ((match c with None => 0 | Some _ => 1 end)%Z, (match k with None => 0 | Some _ => 1 end)%Z).
Proof.
  intros P ->. unfold sig_shape, infer_dims. rewrite !app_length.
  destruct c, k, dK as [z|]; simpl in *; subst;
    try (replace (Z.of_nat (length nv + 0) - Z.of_nat (length nv))%Z with 0%Z by lia);
    try (replace (Z.of_nat (length nv + 1) - Z.of_nat (length nv))%Z with 1%Z by lia);
    try (replace (Z.of_nat (length nv + 2) - Z.of_nat (length nv))%Z with 2%Z by lia); simpl; try reflexivity.
  destruct dc; [reflexivity|congruence].
Qed.

Lemma layout_ok (dc c k : option nat) (dK : option Z) (nv dspat : list nat) (dCd : Z) (m : nat) :
  prescribed dc c k dK -> dCd = (match dc with None => 0 | Some _ => 1 end)%Z ->
  layout (length nv) dCd (size_of dc) m (sig_shape nv c k) dK dspat =
  if (Nat.leb (size_of dc) 1 || Nat.eqb (size_of c) (size_of dc))%bool then
    Ok (mkCri (length nv) dCd (match c with None => 0 | Some _ => 1 end)%Z (match k with None => 0 | Some _ => 1 end)%Z
          (size_of dc) (size_of c) (size_of c + 1 - size_of dc) (size_of k) m nv
          (dspat ++ [size_of dc; 1; m]) (nv ++ [size_of c; size_of k; 1]) (nv ++ [size_of c + 1 - size_of dc; size_of k; m]))
  else ValueErr.
Proof.
  intros P E. unfold layout. rewrite (infer_ok dc c k dK nv dCd P E).
  assert (E1 : (if (match c with None => 0 | Some _ => 1 end =? 1)%Z then pyidx (sig_shape nv c k) (Z.of_nat (length nv)) else Ok 1) = Ok (size_of c)).
  { destruct c; simpl; [|reflexivity]. unfold sig_shape. simpl. apply pyidx_app_l. }
  rewrite E1. cbn [bind].
  assert (E3 : (1 <? size_of dc) && negb (size_of c =? size_of dc) = negb ((size_of dc <=? 1) || (size_of c =? size_of dc))).
  { rewrite negb_orb. f_equal. destruct (Nat.ltb_spec 1 (size_of dc)), (Nat.leb_spec (size_of dc) 1); try reflexivity; lia. }
  rewrite E3. destruct ((size_of dc <=? 1) || (size_of c =? size_of dc)); simpl negb; [|reflexivity]. cbv iota.
  assert (E2 : (if (match k with None => 0 | Some _ => 1 end =? 1)%Z
     then pyidx (sig_shape nv c k) (Z.of_nat (length nv) + match c with None => 0 | Some _ => 1 end) else Ok 1) = Ok (size_of k)).
  { destruct k as [k|]; simpl; [|reflexivity]. unfold sig_shape. destruct c as [c|]; simpl.
    - replace (Z.of_nat (length nv) + 1)%Z with (Z.of_nat (length (nv ++ [c]))) by (rewrite app_length; simpl; lia).
      change (nv ++ [c; k]) with (nv ++ [c] ++ [k]). rewrite app_assoc. apply pyidx_app_l.
    - replace (Z.of_nat (length nv) + 0)%Z with (Z.of_nat (length nv)) by lia. apply pyidx_app_l. }
  rewrite E2. cbn [bind]. unfold sig_shape. rewrite firstn_app_len by reflexivity. reflexivity.
Qed.

Lemma layout_dimN dN dCd cd m Ssh dK dspat r : layout dN dCd cd m Ssh dK dspat = Ok r -> dimN r = dN.
Proof.
  unfold layout. destruct (infer_dims _ _ _ _) as [a b].
  destruct (if (a =? 1)%Z then pyidx Ssh (Z.of_nat dN) else Ok 1) as [c| |]; cbn [bind]; try discriminate.
  destruct ((1 <? cd) && negb (c =? cd)); try discriminate.
  destruct (if (b =? 1)%Z then pyidx Ssh (Z.of_nat dN + a) else Ok 1) as [k| |]; cbn [bind]; try discriminate.
  intros Q. injection Q as <-. reflexivity.
Qed.

(** ** C30 *)
(** For a signal and a dictionary of the documented shapes: the channels, signals and filters are those of the axes, the
    internal shapes are in the documented order, and the only error is that of mismatched channel numbers. *)
Theorem C30_layout (nv dv : list nat) (c k dc : option nat) (m : nat) (dK : option Z) :
  length dv = length nv -> prescribed dc c k dK -> 1 <= size_of dc -> 1 <= size_of c ->
  match csc_index (dic_shape dv dc m) (sig_shape nv c k) dK (length nv) with
  | Ok r => (size_of dc = 1 \/ size_of c = size_of dc) /\
      C r = size_of c /\ K r = size_of k /\ M r = m /\ Cd r = size_of dc /\ Nv r = nv /\
      shpS r = nv ++ [size_of c; size_of k; 1] /\ shpD r = dv ++ [size_of dc; 1; m] /\
      shpX r = nv ++ [if Nat.eqb (size_of dc) 1 then size_of c else 1; size_of k; m]
  | ValueErr => size_of dc <> 1 /\ size_of c <> size_of dc
  | IndexErr => False
  end.
Proof.
  intros Ld P Hd Hc. unfold csc_index.
  assert (E1 : (if (Z.of_nat (length (dic_shape dv dc m)) - (Z.of_nat (length nv) + 1) =? 0)%Z then Ok 1 else pyidx (dic_shape dv dc m) (-2)) = Ok (size_of dc)).
  { unfold dic_shape. rewrite !app_length, Ld. destruct dc as [d|]; simpl.
    - replace (Z.of_nat (length nv + 2) - (Z.of_nat (length nv) + 1) =? 0)%Z with false by (symmetry; apply Z.eqb_neq; lia). apply pyidx_last2.
    - replace (Z.of_nat (length nv + 1) - (Z.of_nat (length nv) + 1) =? 0)%Z with true by (symmetry; apply Z.eqb_eq; lia). reflexivity. }
  rewrite E1. cbn [bind].
  assert (E2 : pyidx (dic_shape dv dc m) (-1) = Ok m).
  { unfold dic_shape. rewrite app_assoc. apply pyidx_last. }
  rewrite E2. cbn [bind].
  rewrite (layout_ok dc) by (try exact P; unfold dic_shape; rewrite !app_length, Ld; destruct dc; simpl; lia).
  unfold dic_shape. rewrite firstn_app_len by congruence.
  destruct (Nat.leb_spec (size_of dc) 1), (Nat.eqb_spec (size_of c) (size_of dc)); simpl.
  - split; [right; assumption|]. repeat split. f_equal. f_equal. destruct (Nat.eqb_spec (size_of dc) 1); lia.
  - split; [left; lia|]. repeat split. f_equal. f_equal. destruct (Nat.eqb_spec (size_of dc) 1); lia.
  - split; [right; assumption|]. repeat split. f_equal. f_equal. destruct (Nat.eqb_spec (size_of dc) 1); lia.
  - lia.
Qed.
Print Assumptions C30_layout.

(** Hence the internal arrays have the sizes of the given ones, and D * X is of the size of S for each filter. *)
Theorem C30_sizes (nv dv : list nat) (c k dc : option nat) (m : nat) (dK : option Z) (r : cri) :
  length dv = length nv -> prescribed dc c k dK -> 1 <= size_of dc -> 1 <= size_of c ->
  csc_index (dic_shape dv dc m) (sig_shape nv c k) dK (length nv) = Ok r ->
  prod (shpS r) = prod (sig_shape nv c k) /\ prod (shpD r) = prod (dic_shape dv dc m) /\
  bcasts (skipn (length nv) (shpD r)) (skipn (length nv) (shpX r)) = Some [C r; K r; M r].
Proof.
  intros Ld P Hd Hc E. pose proof (C30_layout nv dv c k dc m dK Ld P Hd Hc) as H. rewrite E in H.
  destruct H as (H & -> & -> & -> & _ & _ & -> & -> & ->).
  assert (PA : forall a b, prod (a ++ b) = prod a * prod b) by (induction a as [|x a IH]; intros b; simpl; [lia|rewrite IH; lia]).
  split; [|split].
  - unfold sig_shape. rewrite !PA. destruct c, k; simpl; lia.
  - unfold dic_shape. rewrite !PA. destruct dc; simpl; lia.
  - rewrite <- Ld at 1. rewrite !skipn_app, !Nat.sub_diag, !skipn_all. simpl.
    assert (B : forall x, bcast 1 x = Some x) by (intros x; unfold bcast; destruct (Nat.eqb_spec 1 x); [congruence|reflexivity]).
    rewrite !B. unfold bcast at 2. rewrite Nat.eqb_refl.
    destruct (Nat.eqb_spec (size_of dc) 1) as [E1|E1].
    + rewrite E1, B. reflexivity.
    + unfold bcast. destruct (Nat.eqb_spec (size_of dc) 1); [contradiction|]. simpl. destruct H; [contradiction|]. congruence.
Qed.
Print Assumptions C30_sizes.
Example C30_ex : length [5; 5] = length [64; 48] /\ prescribed (Some 3) (Some 3) None None /\
  csc_index (dic_shape [5; 5] (Some 3) 16) (sig_shape [64; 48] (Some 3) None) None 2 =
  Ok (mkCri 2 1 1 0 3 3 1 1 16 [64; 48] [5; 5; 3; 1; 16] [64; 48; 3; 1; 1] [64; 48; 1; 1; 16]).
Proof. repeat split; discriminate. Qed.

(** The dictionary update class infers the same layout from the shape of the dictionary; only the spatial size of the
    dictionary is that of the signal. *)
Theorem C30_update_agrees (nv dv : list nat) (c k dc : option nat) (m : nat) (dK : option Z) :
  length dv = length nv -> prescribed dc c k dK ->
  match csc_index (dic_shape dv dc m) (sig_shape nv c k) dK (length nv), cdu_index (Flat (dic_shape dv dc m)) (sig_shape nv c k) dK (length nv) with
  | Ok a, Ok b => shpS a = shpS b /\ shpX a = shpX b /\ dimC a = dimC b /\ dimK a = dimK b /\
                  shpD b = nv ++ [Cd a; 1; M a]
  | ValueErr, ValueErr => True
  | _, _ => False
  end.
Proof.
  intros Ld P. unfold csc_index, cdu_index, dict_size.
  assert (E1 : (if (Z.of_nat (length (dic_shape dv dc m)) - (Z.of_nat (length nv) + 1) =? 0)%Z then Ok 1 else pyidx (dic_shape dv dc m) (-2)) = Ok (size_of dc)).
  { unfold dic_shape. rewrite !app_length, Ld. destruct dc as [d|]; simpl.
    - replace (Z.of_nat (length nv + 2) - (Z.of_nat (length nv) + 1) =? 0)%Z with false by (symmetry; apply Z.eqb_neq; lia). apply pyidx_last2.
    - replace (Z.of_nat (length nv + 1) - (Z.of_nat (length nv) + 1) =? 0)%Z with true by (symmetry; apply Z.eqb_eq; lia). reflexivity. }
  assert (E2 : pyidx (dic_shape dv dc m) (-1) = Ok m) by (unfold dic_shape; rewrite app_assoc; apply pyidx_last).
  assert (E3 : (if length (dic_shape dv dc m) =? length nv + 1 then Ok 1 else pyidx (dic_shape dv dc m) (-2)) = Ok (size_of dc)).
  { unfold dic_shape. rewrite !app_length, Ld. destruct dc as [d|]; simpl.
    - replace (length nv + 2 =? length nv + 1) with false by (symmetry; apply Nat.eqb_neq; lia). apply pyidx_last2.
    - rewrite Nat.eqb_refl. reflexivity. }
  rewrite E1, E2, E3. cbn [bind ds_ndim ds_nchn ds_nflt].
  rewrite !(layout_ok dc) by (try exact P; unfold dic_shape; rewrite !app_length, Ld; destruct dc; simpl; lia).
  destruct ((size_of dc <=? 1) || (size_of c =? size_of dc)); [|exact I]. simpl. repeat split.
  unfold sig_shape. rewrite firstn_app_len by reflexivity. reflexivity.
Qed.
Print Assumptions C30_update_agrees.

(** Sizes in blocks: the number of filters is the sum over the blocks, and the maximum size bounds every block. *)
Definition block_flt (b : block) : nat := match b with Blk s => last s 0 | CBlk l => last (hd [] l) 0 end.
Definition block_spat (dN : nat) (b : block) : list (list nat) := map (firstn dN) (match b with Blk s => [s] | CBlk l => l end).
Definition wf_block (dN : nat) (b : block) : Prop := match b with Blk s => dN < length s | CBlk l => l <> [] /\ Forall (fun s => dN + 1 < length s) l end.

Lemma pyidx_m1 (s : list nat) : s <> [] -> pyidx s (-1) = Ok (last s 0).
Proof. intros H. destruct (exists_last H) as (a & x & ->). rewrite pyidx_last, last_last. reflexivity. Qed.
Lemma vmaximum_nth dN a b i : i < dN -> nth i (vmaximum dN a b) 0 = Nat.max (nth i a 0) (nth i b 0).
Proof.
  intros H. unfold vmaximum.
  rewrite (nth_indep _ 0 ((fun i => Nat.max (nth i a 0) (nth i b 0)) 0)) by (rewrite map_length, seq_length; exact H).
  rewrite (map_nth (fun i => Nat.max (nth i a 0) (nth i b 0))), seq_nth by exact H. reflexivity.
Qed.
Lemma vmaximum_len dN a b : length (vmaximum dN a b) = dN.
Proof. unfold vmaximum. rewrite map_length, seq_length. reflexivity. Qed.
Lemma fold_max dN szs : forall mx i, i < dN ->
  nth i (fold_left (fun a s => vmaximum dN a (firstn dN s)) szs mx) 0 = Nat.max (nth i mx 0) (list_max (map (fun s => nth i (firstn dN s) 0) szs)).
Proof.
  induction szs as [|s r IH]; intros mx i Hi; simpl; [lia|]. rewrite IH, vmaximum_nth by exact Hi. lia.
Qed.
Lemma sum_blocks_ok dN bs : Forall (wf_block dN) bs -> forall n mx, exists mx',
  sum_blocks dN bs n mx = Ok (n + list_sum (map block_flt bs), mx') /\
  forall i, i < dN -> nth i mx' 0 = Nat.max (nth i mx 0) (list_max (map (fun s => nth i s 0) (concat (map (block_spat dN) bs)))).
Proof.
  induction bs as [|b bs IH]; intros W n mx; [exists mx; simpl; split; [f_equal; f_equal; lia|intros; lia]|].
  inversion W as [|? ? W1 W2]; subst. destruct b as [s|l]; cbn [sum_blocks].
  - simpl in W1. rewrite pyidx_m1 by (destruct s; [simpl in W1; lia|discriminate]). cbn [bind].
    destruct (IH W2 (n + last s 0) (vmaximum dN mx (firstn dN s))) as (mx' & E & H). exists mx'. split.
    + rewrite E. f_equal. f_equal. simpl. lia.
    + intros i Hi. rewrite H, vmaximum_nth by exact Hi. simpl. lia.
  - destruct W1 as [W0 W1]. destruct l as [|s0 l]; [congruence|]. inversion W1 as [|? ? W3 W4]; subst.
    rewrite pyidx_m1 by (destruct s0; [simpl in W3; lia|discriminate]). cbn [bind].
    destruct (IH W2 (n + last s0 0) (fold_left (fun a s => vmaximum dN a (firstn dN s)) (s0 :: l) mx)) as (mx' & E & H). exists mx'. split.
    + rewrite E. f_equal. f_equal. simpl. lia.
    + intros i Hi. rewrite H, fold_max by exact Hi. 
      change (concat (map (block_spat dN) (CBlk (s0 :: l) :: bs))) with (block_spat dN (CBlk (s0 :: l)) ++ concat (map (block_spat dN) bs)).
      rewrite map_app, list_max_app. unfold block_spat at 2. rewrite (map_map (firstn dN) (fun s => nth i s 0)). lia.
Qed.
Theorem C30_block_sizes (dN : nat) (bs : list block) : bs <> [] -> Forall (wf_block dN) bs ->
  exists r, dict_size (Blocks bs) dN = Ok r /\ ds_nflt r = list_sum (map block_flt bs) /\
    (forall i, i < dN -> nth i (ds_mxsz r) 0 = list_max (map (fun s => nth i s 0) (concat (map (block_spat dN) bs)))).
Proof.
  intros Hne W. destruct bs as [|b0 bs]; [congruence|]. unfold dict_size.
  destruct (sum_blocks_ok dN (b0 :: bs) W 0 (repeat 0 dN)) as (mx & E & H).
  rewrite E. inversion W as [|? ? W1 W2]; subst.
  assert (R0 : forall i, nth i (repeat 0 dN) 0 = 0).
  { intros i. clear. revert i. induction dN as [|d IH]; intros [|i]; simpl; auto. }
  destruct b0 as [s|l].
  - simpl in W1. destruct (Nat.eqb (length s) (dN + 1)) eqn:El.
    + cbn [bind]. eexists. split; [reflexivity|]. split; [reflexivity|]. intros i Hi. cbn [ds_mxsz]. rewrite H, R0 by exact Hi. reflexivity.
    + apply Nat.eqb_neq in El.
      assert (exists a x y, s = a ++ [x; y]) as (a & x & y & ->).
      { destruct s as [|z s] using rev_ind; [simpl in W1; lia|]. clear IHs. destruct s as [|w s] using rev_ind; [simpl in *; lia|].
        exists s, w, z. rewrite <- app_assoc. reflexivity. }
      rewrite pyidx_last2. cbn [bind]. eexists. split; [reflexivity|]. split; [reflexivity|]. intros i Hi. cbn [ds_mxsz]. rewrite H, R0 by exact Hi. reflexivity.
  - destruct W1 as [W0 W1]. destruct l as [|s0 l]; [congruence|].
    assert (S : exists n, sum_chn (s0 :: l) = Ok n).
    { clear -W1. induction W1 as [|s l0 Hs Hl IH]; [exists 0; reflexivity|]. destruct IH as (n & En). simpl.
      assert (exists a x y, s = a ++ [x; y]) as (a & x & y & ->).
      { destruct s as [|z s] using rev_ind; [simpl in Hs; lia|]. clear IHs. destruct s as [|w s] using rev_ind; [simpl in *; lia|].
        exists s, w, z. rewrite <- app_assoc. reflexivity. }
      rewrite pyidx_last2, En. simpl. eexists. reflexivity. }
    destruct S as (n & En). rewrite En. cbn [bind]. eexists. split; [reflexivity|]. split; [reflexivity|]. intros i Hi. cbn [ds_mxsz]. rewrite H, R0 by exact Hi. reflexivity.
Qed.
Print Assumptions C30_block_sizes.
Example C30_block_ex : dict_size (Blocks [Blk [8; 8; 16]; Blk [12; 4; 32]]) 2 = Ok (mkDs 3 1 48 [12; 8]) /\
  Forall (wf_block 2) [Blk [8; 8; 16]; CBlk [[12; 4; 1; 32]; [3; 3; 2; 32]]].
Proof. split; [reflexivity|]. repeat constructor; simpl; try lia; discriminate. Qed.

(** Inadmissible combinations are not all rejected: with dimK = 0 and two further axes in S, both are taken for channel
    axes; the layout then has one channel and one signal, and the sizes do not match. *)
Theorem C30_rejects_refuted :
  exists Dsh Ssh dK dN r, csc_index Dsh Ssh dK dN = Ok r /\ prod (shpS r) <> prod Ssh /\ dimC r = 2%Z /\ C r = 1.
Proof.
  exists [5; 5; 16], [8; 8; 3; 4], (Some 0%Z), 2. eexists. split; [reflexivity|]. split; [simpl; lia|]. split; reflexivity.
Qed.
Print Assumptions C30_rejects_refuted.
(** The same without dimK for a signal with three axes after the spatial ones. *)
Theorem C30_extra_axes_refuted :
  exists Dsh Ssh dN r, csc_index Dsh Ssh None dN = Ok r /\ prod (shpS r) <> prod Ssh.
Proof. exists [5; 5; 16], [8; 8; 3; 4; 2], 2. eexists. split; [reflexivity|]. simpl. lia. Qed.
Print Assumptions C30_extra_axes_refuted.

(** ** C66: layouts of weights *)
(** An external array which follows the axes of S: each size is that of S or one. *)
Definition follows (w s : list nat) : Prop := Forall2 (fun a b => a = b \/ a = 1) w s.
(** Its correct internal layout. *)
Definition wgt_axes (nw : list nat) (c k : option nat) (m : nat) : list nat := nw ++ [size_of c; size_of k; m].

(** An l1 weight array with the axes of S and possibly a filter axis gets the right internal shape in all cases but one:
    if S has a signal axis and no channel axis, the signal axis is taken for a channel axis. *)
Theorem C66_l1_weight (r : cri) (nw : list nat) (c k : option nat) (m : option nat) :
  length nw = dimN r -> dimC r = (match c with None => 0 | Some _ => 1 end)%Z -> dimK r = (match k with None => 0 | Some _ => 1 end)%Z ->
  l1Wshape (nw ++ opt_axis c ++ opt_axis k ++ opt_axis m) r =
  Ok (match c, k with
      | None, Some kk => nw ++ [kk; 1; size_of m]
      | _, _ => wgt_axes nw c k (size_of m)
      end).
Proof.
  intros L EC EK. unfold l1Wshape. rewrite EC, EK, <- L.
  assert (LW : Z.of_nat (length (nw ++ opt_axis c ++ opt_axis k ++ opt_axis m)) =
    (Z.of_nat (length nw) + (match c with None => 0 | Some _ => 1 end) + (match k with None => 0 | Some _ => 1 end) + (match m with None => 0 | Some _ => 1 end))%Z).
  { rewrite !app_length. destruct c, k, m; simpl; lia. }
  rewrite LW. set (n := Z.of_nat (length nw)).
  set (sd := (n + (match c with None => 0 | Some _ => 1 end) + (match k with None => 0 | Some _ => 1 end))%Z).
  destruct m as [m|].
  - replace (sd + 1 <? sd)%Z with false by (symmetry; apply Z.ltb_ge; lia).
    replace (sd + 1 =? sd)%Z with false by (symmetry; apply Z.eqb_neq; lia).
    assert (LR : removelast (nw ++ opt_axis c ++ opt_axis k ++ [m]) = nw ++ opt_axis c ++ opt_axis k /\
                 rev (nw ++ opt_axis c ++ opt_axis k ++ [m]) = m :: rev (nw ++ opt_axis c ++ opt_axis k)).
    { rewrite !app_assoc. split; [apply removelast_last|]. rewrite rev_app_distr. reflexivity. }
    destruct LR as [L1 L2]. cbn [opt_axis]. rewrite L1, L2. unfold sd, wgt_axes.
    destruct c as [c|], k as [k|]; simpl opt_axis; cbn [app size_of].
    + replace (n + 1 + 1 + 1 =? n + 3)%Z with true by (symmetry; apply Z.eqb_eq; lia). reflexivity.
    + replace (n + 1 + 0 + 1 =? n + 3)%Z with false by (symmetry; apply Z.eqb_neq; lia). rewrite <- app_assoc. reflexivity.
    + replace (n + 0 + 1 + 1 =? n + 3)%Z with false by (symmetry; apply Z.eqb_neq; lia). rewrite <- app_assoc. reflexivity.
    + replace (n + 0 + 0 + 1 =? n + 3)%Z with false by (symmetry; apply Z.eqb_neq; lia). rewrite app_nil_r. reflexivity.
  - replace (sd + 0)%Z with sd by lia. rewrite Z.ltb_irrefl, Z.eqb_refl. unfold wgt_axes.
    destruct c as [c|], k as [k|]; simpl opt_axis; cbn [app size_of]; rewrite ?app_nil_r; try rewrite <- app_assoc; reflexivity.
Qed.
Print Assumptions C66_l1_weight.

(** In that case the weight cannot be multiplied with the coefficients, if there are at least two signals. *)
Theorem C66_l1_weight_signals_refuted :
  exists (Dsh Ssh W : list nat) (r : cri) (sh : list nat), csc_index Dsh Ssh None 2 = Ok r /\ W = Ssh ++ [M r] /\
    l1Wshape W r = Ok sh /\ bcasts sh (shpX r) <> Some (shpX r).
Proof.
  exists [5; 5; 16], [8; 8; 4], [8; 8; 4; 16]. eexists. eexists. split; [reflexivity|]. split; [reflexivity|]. split; [reflexivity|]. discriminate.
Qed.
Print Assumptions C66_l1_weight_signals_refuted.

(** Nor for a dictionary with channels: the coefficients then have no channel axis, and the documented shape
    S.shape + D.shape[-1:] is not compatible with them. *)
Theorem C66_l1_weight_channels_refuted :
  exists (Dsh Ssh W : list nat) (r : cri) (sh : list nat), csc_index Dsh Ssh None 2 = Ok r /\ W = Ssh ++ [M r] /\
    l1Wshape W r = Ok sh /\ bcasts sh (shpX r) <> Some (shpX r).
Proof.
  exists [5; 5; 3; 16], [8; 8; 3], [8; 8; 3; 16]. eexists. eexists. split; [reflexivity|]. split; [reflexivity|]. split; [reflexivity|]. discriminate.
Qed.
Print Assumptions C66_l1_weight_channels_refuted.

(** In the other cases it is compatible with the coefficients of a single channel dictionary. *)
Lemma bcasts_follow (w s : list nat) : follows w s -> bcasts w s = Some s.
Proof.
  intros H. induction H as [|a b w s [->| ->] H IH]; [reflexivity| |]; simpl; rewrite IH; unfold bcast.
  - rewrite Nat.eqb_refl. reflexivity.
  - destruct (Nat.eqb_spec 1 b) as [->|]; reflexivity.
Qed.
Theorem C66_l1_weight_compatible (nv dv nw : list nat) (c k wc wk : option nat) (m wm : nat) (dK : option Z) (r : cri) (sh : list nat) :
  length dv = length nv -> prescribed None c k dK -> 1 <= size_of c -> (c = None -> k = None) ->
  csc_index (dic_shape dv None m) (sig_shape nv c k) dK (length nv) = Ok r ->
  follows nw nv -> (wc = None <-> c = None) -> (wk = None <-> k = None) ->
  (size_of wc = size_of c \/ size_of wc = 1) -> (size_of wk = size_of k \/ size_of wk = 1) -> (wm = m \/ wm = 1) ->
  l1Wshape (nw ++ opt_axis wc ++ opt_axis wk ++ [wm]) r = Ok sh -> bcasts sh (shpX r) = Some (shpX r).
Proof.
  intros Ld P Hc Hck E Fw Ec Ek Sc Sk Sm EW.
  assert (E0 : dimN r = length nv /\ dimC r = (match wc with None => 0 | Some _ => 1 end)%Z /\ dimK r = (match wk with None => 0 | Some _ => 1 end)%Z).
  { revert E. unfold csc_index. unfold dic_shape. simpl opt_axis. rewrite app_length, Ld. simpl length.
    replace (Z.of_nat (length nv + 1) - (Z.of_nat (length nv) + 1))%Z with 0%Z by lia. simpl Z.eqb. cbn [bind app].
    rewrite pyidx_last. cbn [bind]. rewrite (layout_ok None c k dK nv _ 0%Z m P eq_refl). simpl. intros E. injection E as <-. simpl.
    split; [reflexivity|]. split; [destruct wc, c; try reflexivity|destruct wk, k; try reflexivity]; exfalso; intuition congruence. }
  destruct E0 as (E1 & E2 & E3).
  assert (Lw : length nw = length nv) by (clear -Fw; induction Fw; simpl; congruence).
  pose proof (C66_l1_weight r nw wc wk (Some wm) ltac:(congruence) E2 E3) as Q. simpl opt_axis in Q. rewrite Q in EW. injection EW as <-.
  pose proof (C30_layout nv dv c k None m dK Ld P ltac:(simpl; lia) Hc) as H. rewrite E in H.
  destruct H as (_ & _ & _ & _ & _ & _ & _ & _ & ->). simpl.
  assert (G : follows (wgt_axes nw wc wk wm) (nv ++ [size_of c; size_of k; m])).
  { apply Forall2_app; [exact Fw|]. apply Forall2_cons; [exact Sc|]. apply Forall2_cons; [exact Sk|]. apply Forall2_cons; [exact Sm|constructor]. }
  destruct wc as [wc|], wk as [wk|]; try (apply bcasts_follow; exact G).
  exfalso. assert (c = None) by (apply Ec; reflexivity). specialize (Hck H). apply Ek in Hck. discriminate.
Qed.
Print Assumptions C66_l1_weight_compatible.

(** Other numbers of axes are not rejected: the result does not have the internal number of axes. *)
Theorem C66_l1_weight_axes_refuted : exists (W : list nat) (r : cri) (sh : list nat),
  csc_index [5; 5; 16] [8; 8] None 2 = Ok r /\ l1Wshape W r = Ok sh /\ length sh <> dimN r + 3.
Proof. exists [8; 8; 1; 16]. eexists. eexists. split; [reflexivity|]. split; [reflexivity|]. simpl. discriminate. Qed.
Print Assumptions C66_l1_weight_axes_refuted.

(** A mask with the axes of S always gets an internal shape compatible with that of S. *)
Theorem C66_mask (nv dv nw : list nat) (c k wc wk dc : option nat) (m : nat) (dK : option Z) (r : cri) :
  length dv = length nv -> prescribed dc c k dK -> 1 <= size_of dc -> 1 <= size_of c -> 1 <= size_of k ->
  csc_index (dic_shape dv dc m) (sig_shape nv c k) dK (length nv) = Ok r ->
  follows nw nv -> (wc = None <-> c = None) -> (wk = None <-> k = None) ->
  (size_of wc = size_of c \/ size_of wc = 1) -> (size_of wk = size_of k \/ size_of wk = 1) ->
  exists sh, mskWshape (nw ++ opt_axis wc ++ opt_axis wk) r = Ok sh /\ bcasts sh (shpS r) = Some (shpS r).
Proof.
  intros Ld P Hd Hc Hk E Fw Ec Ek Sc Sk.
  pose proof (C30_layout nv dv c k dc m dK Ld P Hd Hc) as H. rewrite E in H.
  destruct H as (_ & EC & EK & _ & _ & _ & -> & _ & _).
  assert (E1 : dimN r = length nv).
  { revert E. unfold csc_index. destruct (if (_ =? 0)%Z then Ok 1 else pyidx _ (-2)); cbn [bind]; try discriminate.
    destruct (pyidx _ (-1)); cbn [bind]; try discriminate. apply layout_dimN. }
  assert (Lw : length nw = length nv) by (clear -Fw; induction Fw; simpl; congruence).
  assert (G : forall w1 w2, (w1 = size_of c \/ w1 = 1) -> (w2 = size_of k \/ w2 = 1) -> bcasts (nw ++ [w1; w2; 1]) (nv ++ [size_of c; size_of k; 1]) = Some (nv ++ [size_of c; size_of k; 1])).
  { intros w1 w2 W1 W2. apply bcasts_follow. apply Forall2_app; [exact Fw|]. apply Forall2_cons; [exact W1|]. apply Forall2_cons; [exact W2|]. apply Forall2_cons; [left; reflexivity|constructor]. }
  unfold mskWshape. rewrite E1, EC, EK, <- Lw.
  destruct wc as [wc|], wk as [wk|]; simpl opt_axis; simpl in Sc, Sk; rewrite ?app_nil_l, ?app_nil_r.
  - eexists. split.
    + rewrite app_length. simpl length. replace (Z.of_nat (length nw + 2) - Z.of_nat (length nw))%Z with 2%Z by lia. simpl. reflexivity.
    + rewrite <- app_assoc. apply G; assumption.
  - assert (k = None) by (apply Ek; reflexivity). subst k. simpl size_of.
    cbn [app]. rewrite app_length. simpl length. replace (Z.of_nat (length nw + 1) - Z.of_nat (length nw))%Z with 1%Z by lia.
    rewrite pyidx_app_l. simpl. rewrite firstn_app_len by reflexivity. rewrite Bool.andb_false_r.
    eexists. split; [destruct (_ && _); reflexivity|]. apply G; [exact Sc|left; reflexivity].
  - assert (c = None) by (apply Ec; reflexivity). subst c. simpl size_of.
    cbn [app]. rewrite app_length. simpl length. replace (Z.of_nat (length nw + 1) - Z.of_nat (length nw))%Z with 1%Z by lia.
    rewrite pyidx_app_l. simpl. rewrite firstn_app_len by reflexivity.
    destruct (Nat.leb_spec 2 (size_of k)) as [Hk2|Hk2].
    + destruct (size_of k) as [|[|kk]] eqn:Ekk; try lia. eexists. split; [reflexivity|]. apply G; [left; reflexivity|exact Sk].
    + assert (size_of k = 1) by lia. destruct (size_of k) as [|[|kk]] eqn:Ekk; try lia. eexists. split; [reflexivity|]. apply G; [lia|lia].
  - eexists. split.
    + replace (Z.of_nat (length nw) - Z.of_nat (length nw))%Z with 0%Z by lia. simpl. reflexivity.
    + unfold ones. simpl. apply G; right; reflexivity.
Qed.
Print Assumptions C66_mask.
