Require Import String List Arith ZArith Reals Bool Lia Lra.
Require Import Verif.NdIndex Verif.ArrayModel.
Import ListNotations.
Local Open Scope nat_scope.

(** ** Named tuples *)
Lemma opt_all_some {A} (l : list (option A)) r : opt_all l = Some r <-> l = map Some r.
Proof.
  revert r. induction l as [|[a|] l IH]; intros r; simpl.
  - split; [intros [= <-]; reflexivity|]. destruct r; [reflexivity|discriminate].
  - destruct (opt_all l) as [r'|] eqn:E.
    + split; [intros [= <-]|].
      * simpl. f_equal. apply IH. reflexivity.
      * destruct r as [|b r]; simpl; [discriminate|]. intros [= -> H]. apply IH in H. injection H as ->. reflexivity.
    + split; [discriminate|]. destruct r as [|b r]; simpl; [discriminate|]. intros [= -> H]. apply IH in H. discriminate.
  - split; [discriminate|]. destruct r; discriminate.
Qed.

(** ** Offsets *)
Lemma offset_app s1 s2 i j : length i = length s1 -> offset (s1 ++ s2) (i ++ j) = (offset s1 i + offset s2 j)%Z.
Proof.
  revert i. induction s1 as [|s s1 IH]; intros [|a i] H; simpl in *; try discriminate; [reflexivity|].
  rewrite IH by lia. lia.
Qed.

Lemma offset_add st i j : length i = length st -> length j = length st ->
  (offset st i + offset st j)%Z = offset st (map2 Nat.add i j).
Proof.
  revert i j. induction st as [|s st IH]; intros [|a i] [|b j] H1 H2; simpl in *; try discriminate; [reflexivity|].
  rewrite <- IH by lia. lia.
Qed.

Lemma offset_mul step st j : length step = length st -> length j = length st ->
  offset (map2 (fun s t => (Z.of_nat s * t)%Z) step st) j = offset st (map2 Nat.mul step j).
Proof.
  revert st j. induction step as [|a step IH]; intros [|s st] [|b j] H1 H2; simpl in *; try discriminate; [reflexivity|].
  rewrite IH by lia. lia.
Qed.

Lemma map2_length {A B C} (f : A -> B -> C) x y : length x = length y -> length (map2 f x y) = length x.
Proof. revert y. induction x as [|a x IH]; intros [|b y] H; simpl in *; try discriminate; auto. Qed.

(** ** Rolling windows *)
Lemma roll_inb shape wsz i j : length wsz = length shape ->
  inb wsz i -> inb (map Z.to_nat (map2 (fun n w => (Z.of_nat n - Z.of_nat w + 1)%Z) shape wsz)) j ->
  inb shape (map2 Nat.add i j).
Proof.
  revert wsz i j. induction shape as [|n shape IH]; intros [|w wsz] i j H Hi Hj; simpl in *; try discriminate.
  - inversion Hi. subst. constructor.
  - destruct i as [|a i]; [inversion Hi|]. destruct j as [|b j]; [inversion Hj|].
    apply inb_cons in Hi. apply inb_cons in Hj. simpl. apply inb_cons. split; [lia|].
    apply (IH wsz); [lia| |]; tauto.
Qed.

Lemma roll_exact shape wsz j : length wsz = length shape -> Forall (fun w => 0 < w) wsz ->
  existsb (fun z => Z.ltb z 0) (map2 (fun n w => (Z.of_nat n - Z.of_nat w + 1)%Z) shape wsz) = false ->
  length j = length shape -> (forall i, inb wsz i -> inb shape (map2 Nat.add i j)) ->
  inb (map Z.to_nat (map2 (fun n w => (Z.of_nat n - Z.of_nat w + 1)%Z) shape wsz)) j.
Proof.
  revert wsz j. induction shape as [|n shape IH]; intros [|w wsz] [|b j] H Hw Hz Hj K; simpl in *; try discriminate.
  - constructor.
  - inversion Hw as [|? ? Hw1 Hw2]. subst. apply orb_false_iff in Hz. destruct Hz as [Hz1 Hz2].
    assert (Z0 : inb wsz (map (fun w => w - 1) wsz)).
    { clear -Hw2. induction Hw2; simpl; constructor; [lia|assumption]. }
    pose proof (K ((w - 1) :: map (fun w => w - 1) wsz)) as K0. simpl in K0.
    assert (K1 : inb (n :: shape) ((w - 1 + b) :: map2 Nat.add (map (fun w => w - 1) wsz) j)).
    { apply K0. apply inb_cons. split; [lia|exact Z0]. }
    apply inb_cons in K1. destruct K1 as [K1 _].
    apply inb_cons. split; [lia|]. apply (IH wsz j); auto.
    intros i Hi. pose proof (K (0 :: i)) as Ki. simpl in Ki.
    assert (Q : inb (n :: shape) (b :: map2 Nat.add i j)) by (apply Ki, inb_cons; split; [lia|exact Hi]).
    apply inb_cons in Q. tauto.
Qed.

Lemma roll_pad_inb shape wsz wnm i j : length wsz = length shape -> length wnm = length shape ->
  inb wsz i -> inb wnm j ->
  inb (map2 Nat.add shape (map2 (fun wm n => wm - n - 1) (map2 Nat.add wsz wnm) shape)) (map2 Nat.add i j).
Proof.
  revert wsz wnm i j. induction shape as [|n shape IH]; intros [|w wsz] [|m wnm] i j H1 H2 Hi Hj; simpl in *; try discriminate.
  - inversion Hi. constructor.
  - destruct i as [|a i]; [inversion Hi|]. destruct j as [|b j]; [inversion Hj|].
    apply inb_cons in Hi. apply inb_cons in Hj. simpl. apply inb_cons. split; [lia|].
    apply (IH wsz wnm); try lia; tauto.
Qed.

Lemma no_over_inb shape wsz wnm i j : length wsz = length shape -> length wnm = length shape ->
  existsb (fun p => Nat.ltb 0 p) (map2 (fun wm n => wm - n - 1) (map2 Nat.add wsz wnm) shape) = false ->
  inb wsz i -> inb wnm j -> inb shape (map2 Nat.add i j).
Proof.
  revert wsz wnm i j. induction shape as [|n shape IH]; intros [|w wsz] [|m wnm] i j H1 H2 He Hi Hj; simpl in *; try discriminate.
  - inversion Hi. constructor.
  - destruct i as [|a i]; [inversion Hi|]. destruct j as [|b j]; [inversion Hj|].
    apply orb_false_iff in He. destruct He as [He1 He2]. apply Nat.ltb_ge in He1.
    apply inb_cons in Hi. apply inb_cons in Hj. simpl. apply inb_cons. split; [lia|].
    apply (IH wsz wnm); try lia; tauto.
Qed.

(** ** Subsampling *)
Lemma sub_inb shape step i p : length step = length shape ->
  inb step i -> inb (map2 Nat.div shape step) p -> inb shape (map2 Nat.add i (map2 Nat.mul step p)).
Proof.
  revert step i p. induction shape as [|n shape IH]; intros [|s step] i p H Hi Hp; simpl in *; try discriminate.
  - inversion Hi. constructor.
  - destruct i as [|a i]; [inversion Hi|]. destruct p as [|b p]; [inversion Hp|].
    apply inb_cons in Hi. apply inb_cons in Hp. simpl. apply inb_cons. split; [|apply (IH step); [lia| |]; tauto].
    destruct Hi as [Hi _]. destruct Hp as [Hp _].
    assert (s * S b <= n).
    { apply Nat.le_trans with (s * (n / s)); [apply Nat.mul_le_mono_l; lia|apply Nat.mul_div_le; lia]. }
    nia.
Qed.

Lemma sub_pad_inb shape step i p : length step = length shape ->
  inb step i -> inb (map2 (fun q d => q + Nat.min d 1) (map2 Nat.div shape step) (map2 Nat.modulo shape step)) p ->
  inb (map2 Nat.add shape (map2 (fun qs n => qs - n)
         (map2 Nat.mul (map2 (fun q d => q + Nat.min d 1) (map2 Nat.div shape step) (map2 Nat.modulo shape step)) step) shape))
      (map2 Nat.add i (map2 Nat.mul step p)).
Proof.
  revert step i p. induction shape as [|n shape IH]; intros [|s step] i p H Hi Hp; simpl in *; try discriminate.
  - inversion Hi. constructor.
  - destruct i as [|a i]; [inversion Hi|]. destruct p as [|b p]; [inversion Hp|].
    apply inb_cons in Hi. apply inb_cons in Hp. simpl. apply inb_cons. split; [|apply (IH step); [lia| |]; tauto].
    destruct Hi as [Hi _]. destruct Hp as [Hp _].
    set (q := n / s + Nat.min (n mod s) 1) in *.
    assert (s * S b <= q * s) by (rewrite (Nat.mul_comm q); apply Nat.mul_le_mono_l; lia). nia.
Qed.

(** ** Blocks *)
Lemma nb_length imgsz : forall blksz stpsz, length (numblocks_z imgsz blksz stpsz) = length imgsz.
Proof. induction imgsz; intros; simpl; auto. Qed.

Lemma hd1_nil : forall (l : list nat), l = [] -> hd 1 l = 1. Proof. intros l ->. reflexivity. Qed.

(** Trailing axes have one block per sample. *)
Lemma nb_trailing imgsz : numblocks_z imgsz [] [] = map Z.of_nat imgsz.
Proof. induction imgsz as [|a r IH]; simpl; [reflexivity|]. rewrite IH. f_equal. rewrite Z.div_1_r. lia. Qed.

(** The position in the image of element [i] of block [pos]. *)
Fixpoint src (pos stpsz i : list nat) {struct i} : list nat :=
  match i with
  | [] => pos
  | a :: i' => match stpsz, pos with c :: cs, p :: ps => (a + p * c) :: src ps cs i' | _, _ => [] end
  end.

Lemma src_inb imgsz : forall blksz stpsz i pos,
  length blksz <= length imgsz -> length stpsz = length blksz -> Forall (fun c => 0 < c) stpsz ->
  existsb (fun z => Z.ltb z 0) (numblocks_z imgsz blksz stpsz) = false ->
  inb blksz i -> inb (map Z.to_nat (numblocks_z imgsz blksz stpsz)) pos ->
  inb imgsz (src pos stpsz i).
Proof.
  induction imgsz as [|a r IH]; intros blksz stpsz i pos Hl Hs Hc Hz Hi Hp.
  - destruct blksz; simpl in *; [|lia]. inversion Hi. subst. simpl. exact Hp.
  - destruct blksz as [|b blksz].
    + destruct stpsz; [|discriminate]. rewrite nb_trailing in Hp. inversion Hi. subst. cbn [src].
      rewrite map_map in Hp.
      replace (map (fun x => Z.to_nat (Z.of_nat x)) (a :: r)) with (a :: r) in Hp; [exact Hp|].
      rewrite (map_ext _ (fun x => x)) by (intros; apply Nat2Z.id). rewrite map_id. reflexivity.
    + destruct stpsz as [|c stpsz]; [discriminate|]. inversion Hc as [|? ? Hc1 Hc2]. subst.
      destruct i as [|x i]; [inversion Hi|]. destruct pos as [|p pos]; [inversion Hp|].
      cbn [numblocks_z hd tl existsb] in Hz. apply orb_false_iff in Hz. destruct Hz as [Hz1 Hz2].
      cbn [numblocks_z hd tl map] in Hp. apply inb_cons in Hi. apply inb_cons in Hp.
      cbn [src]. apply inb_cons. split; [|apply (IH blksz); simpl in *; try lia; tauto].
      destruct Hi as [Hi _]. destruct Hp as [Hp _]. apply Z.ltb_ge in Hz1.
      set (q := ((Z.of_nat a - Z.of_nat b) / Z.of_nat c)%Z) in *.
      assert (Q : (Z.of_nat c * q <= Z.of_nat a - Z.of_nat b)%Z) by (apply Z.mul_div_le; lia).
      assert (P : (Z.of_nat p <= q)%Z) by lia.
      assert (Z.of_nat c * Z.of_nat p <= Z.of_nat c * q)%Z by (apply Z.mul_le_mono_nonneg_l; lia).
      nia.
Qed.

Lemma offset_src st : forall stpsz i pos, length pos = length st -> length i = length stpsz -> length i <= length st ->
  (offset (firstn (length i) st) i + offset (map2 (fun a b => (a * Z.of_nat b)%Z) st (fill1 (length st) stpsz)) pos)%Z
  = offset st (src pos stpsz i).
Proof.
  induction st as [|s st IH]; intros stpsz i pos Hp Hi Hl.
  - destruct i; [|simpl in Hl; lia]. destruct pos; [|discriminate]. reflexivity.
  - destruct pos as [|p pos]; [discriminate|]. destruct i as [|x i].
    + destruct stpsz; [|discriminate]. cbn [length firstn offset src]. rewrite Z.add_0_l.
      unfold fill1. cbn [app length]. rewrite Nat.sub_0_r.
      assert (E : forall t, map2 (fun a b => (a * Z.of_nat b)%Z) t (repeat 1 (length t)) = t).
      { induction t as [|z t IHt]; simpl; [reflexivity|]. rewrite IHt. f_equal. lia. }
      change (S (length st)) with (length (s :: st)). rewrite E. reflexivity.
    + destruct stpsz as [|c stpsz]; [discriminate|].
      cbn [length firstn offset src]. unfold fill1. cbn [length app map2 offset Nat.sub].
      fold (fill1 (length st) stpsz).
      rewrite <- (IH stpsz i pos) by (simpl in *; lia). lia.
Qed.

Lemma extract_get {A} (img : sarr A) blksz stpsz y i pos :
  length (strides img) = length (sshape img) ->
  length blksz <= length (sshape img) -> length stpsz = length blksz ->
  extract_blocks img blksz stpsz = Some y ->
  inb blksz i -> inb (numblocks (sshape img) blksz stpsz) pos ->
  shape y = blksz ++ [prod (numblocks (sshape img) blksz stpsz)] /\
  get y (i ++ [ravel (numblocks (sshape img) blksz stpsz) pos]) = sget img (src pos stpsz i).
Proof.
  intros Hst Hl Hs He Hi Hp. unfold extract_blocks in He.
  destruct (existsb _ _); [discriminate|]. injection He as <-. split; [reflexivity|].
  fold (numblocks (sshape img) blksz stpsz). set (nb := numblocks (sshape img) blksz stpsz) in *.
  unfold reshape. cbn [get shape sshape as_strided].
  assert (Li : length i = length blksz) by (apply inb_length; exact Hi).
  assert (E : ravel (blksz ++ [prod nb]) (i ++ [ravel nb pos]) = ravel (blksz ++ nb) (i ++ pos)).
  { rewrite !ravel_app by exact Li. simpl. lia. }
  rewrite E, unravel_ravel by (apply inb_app; auto).
  unfold sget, addr. cbn [mem base strides as_strided]. f_equal. f_equal.
  assert (Lp : length pos = length (strides img)).
  { rewrite (inb_length _ _ Hp). unfold nb, numblocks. rewrite map_length, nb_length. lia. }
  rewrite offset_app by (rewrite firstn_length; lia).
  rewrite <- Li. apply offset_src; lia.
Qed.

Lemma eqlist_iff x : forall y, eqlist x y = true <-> x = y.
Proof.
  induction x as [|a x IH]; intros [|b y]; simpl; try (split; [discriminate|discriminate]); [tauto|].
  rewrite andb_true_iff, Nat.eqb_eq, IH. split; [intros [-> ->]; reflexivity|intros [= -> ->]; auto].
Qed.

(** A position lies in the slices of a block iff it is the position of some element of the block. *)
Lemma inslice_src pos : forall blksz stpsz idx, length blksz <= length pos -> length stpsz = length blksz ->
  (inslice pos blksz stpsz idx = true <-> inb blksz (inblock pos blksz stpsz idx) /\ src pos stpsz (inblock pos blksz stpsz idx) = idx).
Proof.
  induction pos as [|p pos IH]; intros blksz stpsz idx Hl Hs.
  - destruct blksz as [|b blksz]; [|simpl in Hl; lia]. cbn [inslice inblock src]. rewrite eqlist_iff.
    split; [intros E; split; [constructor|exact E]|tauto].
  - destruct blksz as [|b blksz].
    + cbn [inslice inblock src]. rewrite eqlist_iff. split; [intros E; split; [constructor|exact E]|tauto].
    + destruct stpsz as [|c stpsz]; [discriminate|]. destruct idx as [|i idx].
      * simpl. split; [discriminate|]. intros [H _]. inversion H.
      * cbn [inslice inblock src]. rewrite !andb_true_iff, Nat.leb_le, Nat.ltb_lt, inb_cons.
        rewrite (IH blksz stpsz idx) by (simpl in *; lia).
        split.
        -- intros [[H1 H2] [H3 H4]]. repeat split; try lia; [exact H3|]. rewrite H4. f_equal. lia.
        -- intros [[H1 H2] H3]. injection H3 as H3 H4. repeat split; try lia; assumption.
Qed.

Lemma fold_pointwise {S : Type} (g : list nat -> list nat -> S -> S) (l : list (list nat)) : forall (f0 : list nat -> S) idx,
  fold_left (fun (img : list nat -> S) pos => fun idx => g pos idx (img idx)) l f0 idx =
  fold_left (fun s pos => g pos idx s) l (f0 idx).
Proof. induction l as [|p l IH]; intros f0 idx; simpl; [reflexivity|]. rewrite IH. reflexivity. Qed.

Lemma fold_filter {S : Type} (c : list nat -> bool) (u : S -> list nat -> S) l : forall s,
  fold_left (fun s pos => if c pos then u s pos else s) l s = fold_left u (filter c l) s.
Proof. induction l as [|p l IH]; intros s; simpl; [reflexivity|]. rewrite IH. destruct (c p); reflexivity. Qed.

(** The values of the blocks which cover a position, in order. *)
Definition covering (blksz imgsz stpsz idx : list nat) : list (list nat) :=
  filter (fun pos => inslice pos blksz stpsz idx) (indices (numblocks imgsz blksz stpsz)).
Definition cover_values {A} (blks : arr A) (blksz imgsz stpsz idx : list nat) : list A :=
  map (fun pos => get (reshape blks (blksz ++ numblocks imgsz blksz stpsz)) (inblock pos blksz stpsz idx ++ pos))
      (covering blksz imgsz stpsz idx).

Lemma blocks_fold_values {A S} (upd : S -> A -> S) init blks blksz imgsz stpsz idx :
  blocks_fold A upd init blks blksz imgsz stpsz idx = fold_left upd (cover_values blks blksz imgsz stpsz idx) init.
Proof.
  unfold blocks_fold, cover_values, covering.
  rewrite (@fold_pointwise S (fun pos idx s => if inslice pos blksz stpsz idx
    then upd s (get (reshape blks (blksz ++ numblocks imgsz blksz stpsz)) (inblock pos blksz stpsz idx ++ pos)) else s)).
  rewrite (fold_filter (fun pos => inslice pos blksz stpsz idx)
    (fun s pos => upd s (get (reshape blks (blksz ++ numblocks imgsz blksz stpsz)) (inblock pos blksz stpsz idx ++ pos)))).
  generalize (filter (fun pos => inslice pos blksz stpsz idx) (indices (numblocks imgsz blksz stpsz))) as l.
  intros l. revert init. induction l as [|p l IH]; intros s; simpl; [reflexivity|]. apply IH.
Qed.

Lemma fold_app_list {A} (l : list A) : forall a, fold_left (fun l y => l ++ [y]) l a = a ++ l.
Proof. induction l as [|x l IH]; intros a; simpl; [rewrite app_nil_r; reflexivity|]. rewrite IH, <- app_assoc. reflexivity. Qed.

(** Values of the unmodified blocks. *)
Lemma extract_values {A} (img : sarr A) blksz stpsz y idx :
  length (strides img) = length (sshape img) ->
  length blksz <= length (sshape img) -> length stpsz = length blksz ->
  extract_blocks img blksz stpsz = Some y ->
  cover_values y blksz (sshape img) stpsz idx = map (fun _ => sget img idx) (covering blksz (sshape img) stpsz idx).
Proof.
  intros Hst Hl Hs He. unfold cover_values. apply map_ext_in. intros pos Hin.
  unfold covering in Hin. apply filter_In in Hin. destruct Hin as [Hp Hc]. apply in_indices in Hp.
  set (nb := numblocks (sshape img) blksz stpsz) in *.
  assert (Lp : length pos = length (sshape img)).
  { rewrite (inb_length _ _ Hp). unfold nb, numblocks. rewrite map_length, nb_length. reflexivity. }
  apply inslice_src in Hc; [|lia|exact Hs]. destruct Hc as [Hi Hsrc].
  set (i := inblock pos blksz stpsz idx) in *.
  destruct (extract_get img blksz stpsz y i pos Hst Hl Hs He Hi Hp) as [Sy G]. fold nb in Sy, G.
  unfold reshape. cbn [get]. rewrite Sy.
  assert (E : ravel (blksz ++ nb) (i ++ pos) = ravel (blksz ++ [prod nb]) (i ++ [ravel nb pos])).
  { rewrite !ravel_app by (apply inb_length; exact Hi). simpl. lia. }
  rewrite E, unravel_ravel.
  - rewrite G, Hsrc. reflexivity.
  - apply inb_app; [apply inb_length; exact Hi|]. split; [exact Hi|].
    constructor; [apply ravel_lt; exact Hp|constructor].
Qed.
