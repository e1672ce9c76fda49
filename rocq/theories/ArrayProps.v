(** C12: named tuples; C13: sliding windows and subsampling; C14: blocks. *)
Require Import String List Arith ZArith Reals Bool Lia Lra.
Require Import Verif.NdIndex Verif.ArrayModel Verif.ArraySpec Verif.ArrayProofs.
Import ListNotations.
Local Open Scope string_scope.
Local Open Scope list_scope.
Local Open Scope nat_scope.

(** ** C12 *)
(** The transpose of a non-empty list of tuples with the fields of the first has entry i of field f equal to field f of
    tuple i. *)
Theorem C12_transpose (V : Type) (t0 : ntpl V) (lst : list (ntpl V)) :
  (forall t, In t (t0 :: lst) -> length (nvals t) = length (nfields t0)) ->
  exists r, transpose_ntpl_list V (t0 :: lst) = Some (Some r) /\
    nname r = nname t0 /\ nfields r = nfields t0 /\ length (nvals r) = length (nfields t0) /\
    (forall f col, nth_error (nvals r) f = Some col -> length col = S (length lst)) /\
    forall f i t v, nth_error (t0 :: lst) i = Some t -> nth_error (nvals t) f = Some v ->
      exists col, nth_error (nvals r) f = Some col /\ nth_error col i = Some v.
Proof.
  intros H.
  remember (t0 :: lst) as full eqn:Ef.
  assert (Hc : forall l, l < length (nfields t0) -> exists col,
     opt_all (map (fun t => nth_error (nvals t) l) full) = Some col /\
     map Some col = map (fun t => nth_error (nvals t) l) full).
  { intros l Hl.
    assert (E : exists col, map Some col = map (fun t => nth_error (nvals t) l) full).
    { clear Ef. induction full as [|t f IH]; [exists []; reflexivity|].
      destruct IH as [c Hcc]; [intros t' Ht'; apply H; right; exact Ht'|].
      destruct (nth_error (nvals t) l) as [v|] eqn:Ev.
      - exists (v :: c). simpl. rewrite Ev, Hcc. reflexivity.
      - apply nth_error_None in Ev. rewrite (H t (or_introl eq_refl)) in Ev. lia. }
    destruct E as [col Hcol]. exists col. split; [|exact Hcol]. apply opt_all_some. symmetry. exact Hcol. }
  assert (H0 : length (nvals t0) = length (nfields t0)) by (apply H; rewrite Ef; left; reflexivity).
  assert (Hcols : exists cols, map Some cols = map (fun l => opt_all (map (fun t => nth_error (nvals t) l) full)) (seq 0 (length (nvals t0)))).
  { rewrite H0. generalize (fun l (Hl : In l (seq 0 (length (nfields t0)))) => Hc l (proj2 (proj1 (in_seq _ _ _) Hl))) as K.
    generalize (seq 0 (length (nfields t0))) as ls. induction ls as [|l ls IH]; intros K; [exists []; reflexivity|].
    destruct IH as [c Hcc]; [intros x Hx; apply K; right; exact Hx|].
    destruct (K l (or_introl eq_refl)) as [col [Hcol _]]. exists (col :: c). simpl. rewrite Hcol, Hcc. reflexivity. }
  destruct Hcols as [cols Hcols].
  assert (Lc : length cols = length (nfields t0)).
  { apply (f_equal (@length _)) in Hcols. rewrite !map_length, seq_length in Hcols. congruence. }
  exists (mkntpl (nname t0) (nfields t0) cols).
  assert (Hth : forall f, f < length (nfields t0) -> exists col, nth_error cols f = Some col /\
      map Some col = map (fun t => nth_error (nvals t) f) full).
  { intros f Hf. destruct (Hc f Hf) as [col [C1 C2]]. exists col. split; [|exact C2].
    assert (Q : nth_error (map Some cols) f = Some (Some col)).
    { rewrite Hcols. rewrite nth_error_map.
      assert (S0 : nth_error (seq 0 (length (nvals t0))) f = Some f).
      { rewrite (nth_error_nth' _ 0) by (rewrite seq_length; lia). rewrite seq_nth by lia. reflexivity. }
      rewrite S0. simpl. f_equal. exact C1. }
    rewrite nth_error_map in Q. destruct (nth_error cols f); simpl in Q; congruence. }
  split; [|split; [reflexivity|split; [reflexivity|split; [exact Lc|split]]]].
  - unfold transpose_ntpl_list. rewrite Ef at 1.
    assert (E : opt_all (map (fun l => opt_all (map (fun t => nth_error (nvals t) l) full)) (seq 0 (length (nvals t0)))) = Some cols)
      by (apply opt_all_some; symmetry; exact Hcols).
    rewrite E. unfold make_ntpl. rewrite Lc, Nat.eqb_refl. reflexivity.
  - cbn [nvals]. intros f col Hf.
    assert (Lf : f < length (nfields t0)) by (rewrite <- Lc; apply nth_error_Some; congruence).
    destruct (Hth f Lf) as [col' [C1 C2]]. rewrite C1 in Hf. injection Hf as ->.
    apply (f_equal (@length _)) in C2. rewrite !map_length in C2. rewrite C2, Ef. reflexivity.
  - cbn [nvals]. intros f i t v Hi Hv.
    assert (Lf : f < length (nfields t0)).
    { rewrite <- (H t) by (eapply nth_error_In; exact Hi). apply nth_error_Some. congruence. }
    destruct (Hth f Lf) as [col [C1 C2]]. exists col. split; [exact C1|].
    apply (f_equal (fun l => nth_error l i)) in C2. rewrite !nth_error_map, Hi in C2. simpl in C2. rewrite Hv in C2.
    destruct (nth_error col i); simpl in C2; congruence.
Qed.
Print Assumptions C12_transpose.
Example C12_transpose_ex :
  transpose_ntpl_list nat [mkntpl "IS" ["Iter"; "Rho"] [0; 7]; mkntpl "IS" ["Iter"; "Rho"] [1; 8]; mkntpl "IS" ["Iter"; "Rho"] [2; 9]] =
  Some (Some (mkntpl "IS" ["Iter"; "Rho"] [[0; 1; 2]; [7; 8; 9]])).
Proof. reflexivity. Qed.
Example C12_transpose_empty : transpose_ntpl_list nat [] = Some None.
Proof. reflexivity. Qed.

(** Conversion to an array and back is the identity for tuples with scalar fields.  Missing: tuples with list fields. *)
Theorem C12_roundtrip_partial (V : Type) (t : ntpl (fval V)) :
  length (nvals t) = length (nfields t) -> (forall f, In f (nvals t) -> exists v, f = Sc v) ->
  array2ntpl V (ntpl2array V t) = Some t.
Proof.
  intros Hl Hs. unfold array2ntpl, ntpl2array, make_ntpl. destruct t as [nm fl vs]. cbn [nvals nfields nname] in *.
  assert (E : map Sc (flat_map (fun f => match f with Sc v => [v] | Ls l => l end) vs) = vs).
  { clear Hl. induction vs as [|f vs IH]; simpl; [reflexivity|].
    destruct (Hs f (or_introl eq_refl)) as [v ->]. simpl. f_equal. apply IH. intros g Hg. apply Hs. right. exact Hg. }
  rewrite E, Hl, Nat.eqb_refl. reflexivity.
Qed.
Print Assumptions C12_roundtrip_partial.
Example C12_roundtrip_ex : array2ntpl nat (ntpl2array nat (mkntpl "NT" ["A"; "B"; "C"] [Sc 0; Sc 1; Sc 2])) = Some (mkntpl "NT" ["A"; "B"; "C"] [Sc 0; Sc 1; Sc 2]).
Proof. reflexivity. Qed.

(** A transposed table of n >= 2 rows of m >= 1 columns, which is what the solvers return as iteration statistics, does not survive: the
    reverse conversion raises TypeError. With one row the lists come back as scalars. *)
Theorem C12_table_refuted (V : Type) (name : string) (fields : list string) (cols : list (list V)) (n : nat) :
  length cols = length fields -> fields <> [] -> 2 <= n -> (forall c, In c cols -> length c = n) ->
  array2ntpl V (ntpl2array V (mkntpl name fields (map Ls cols))) = None.
Proof.
  intros Hl Hne Hn Hc. unfold array2ntpl, ntpl2array, make_ntpl. cbn [nvals nfields nname].
  assert (E : length (map (@Sc V) (flat_map (fun f => match f with Sc v => [v] | Ls l => l end) (map Ls cols))) = n * length cols).
  { rewrite map_length. clear Hl. induction cols as [|c cols IH]; simpl; [lia|].
    rewrite app_length, IH by (intros d Hd; apply Hc; right; exact Hd). rewrite (Hc c (or_introl eq_refl)). lia. }
  rewrite E, Hl. destruct (Nat.eqb_spec (n * length fields) (length fields)) as [K|K]; [|reflexivity].
  destruct fields; [congruence|]. simpl in K. nia.
Qed.
Print Assumptions C12_table_refuted.
Example C12_table_ex : array2ntpl nat (ntpl2array nat (mkntpl "IS" ["Iter"; "Rho"] [Ls [0; 1; 2]; Ls [7; 8; 9]])) = None.
Proof. reflexivity. Qed.

(** ** C13 *)
(** Rolling window without a window count: the windows are exactly those inside the array, element i of window j is
    x[i+j], and no address outside the array is formed. *)
Theorem C13_rolling_window (A : Type) (x : sarr A) (wsz : list nat) :
  length (strides x) = length (sshape x) -> length wsz = length (sshape x) -> Forall (fun w => 0 < w) wsz ->
  match rolling_window_all A x wsz with
  | None => exists k n w, nth_error (sshape x) k = Some n /\ nth_error wsz k = Some w /\ n + 1 < w
  | Some y =>
      inside y x /\
      (exists wnm, sshape y = wsz ++ wnm /\
         forall j, length j = length wsz -> (inb wnm j <-> forall i, inb wsz i -> inb (sshape x) (map2 Nat.add i j))) /\
      forall i j, inb (sshape y) (i ++ j) -> length i = length wsz -> sget y (i ++ j) = sget x (map2 Nat.add i j)
  end.
Proof.
  intros Hst Hw Hpos. unfold rolling_window_all.
  destruct (existsb _ _) eqn:E.
  - apply existsb_exists in E. destruct E as (z & Hz & Hneg). apply Z.ltb_lt in Hneg.
    clear Hst Hpos. revert Hw Hz. generalize (sshape x) as s, wsz as w. induction s as [|n s IH]; intros [|w ws] Hw Hz; simpl in *; try discriminate; [contradiction|].
    destruct Hz as [Hz|Hz].
    + exists 0, n, w. simpl. repeat split. lia.
    + destruct (IH ws ltac:(lia) Hz) as (k & n' & w' & K1 & K2 & K3). exists (S k), n', w'. auto.
  - set (wnm := map Z.to_nat (map2 (fun n w => (Z.of_nat n - Z.of_nat w + 1)%Z) (sshape x) wsz)).
    assert (Lw : length wnm = length wsz) by (unfold wnm; rewrite map_length, map2_length by congruence; congruence).
    assert (AD : forall i j, length i = length wsz -> length j = length wsz ->
       addr (as_strided x (wsz ++ wnm) (strides x ++ strides x)) (i ++ j) = addr x (map2 Nat.add i j)).
    { intros i j Hi Hj. unfold addr. cbn [base strides as_strided]. rewrite offset_app by congruence. rewrite offset_add by congruence. reflexivity. }
    split; [split; [reflexivity|]|split].
    + intros idx Hidx. cbn [sshape as_strided] in Hidx. apply inb_app_inv in Hidx. destruct Hidx as (i & j & -> & Hi & Hj).
      exists (map2 Nat.add i j). split; [apply (roll_inb (sshape x) wsz i j Hw Hi Hj)|].
      apply AD; [apply inb_length; exact Hi|]. rewrite <- Lw. apply inb_length. exact Hj.
    + exists wnm. split; [reflexivity|]. intros j Hj. split.
      * intros H i Hi. apply (roll_inb (sshape x) wsz i j Hw Hi H).
      * intros H. apply (roll_exact (sshape x) wsz j Hw Hpos E); [congruence|exact H].
    + intros i j Hin Hi. cbn [sshape as_strided] in Hin. apply inb_app in Hin; [|exact Hi].
      unfold sget. rewrite AD; [reflexivity|exact Hi|]. rewrite <- Lw. apply inb_length. tauto.
Qed.
Print Assumptions C13_rolling_window.

Definition x45 : sarr nat := mksarr [4; 5] [5%Z; 1%Z] 0 Z.to_nat.
Example C13_rolling_ex : option_map (fun y => (sshape y, sget y [2; 2; 1; 2], sget y [0; 1; 1; 0])) (rolling_window_all nat x45 [3; 3])
  = Some ([3; 3; 2; 3], 19, 6).
Proof. reflexivity. Qed.

(** With a window count: the same on the array, extended if necessary with padding at the end of the axes; without
    padding the view stays in the array itself. *)
Theorem C13_rolling_window_count (A : Type) (pad : sarr A -> list nat -> sarr A) (x : sarr A) (wsz wnm : list nat) :
  pad_contract pad ->
  length (strides x) = length (sshape x) -> length wsz = length (sshape x) -> length wnm = length (sshape x) ->
  exists x' over, (x' = x \/ x' = pad x over) /\
    let y := rolling_window A pad x wsz wnm in
    sshape y = wsz ++ wnm /\ inside y x' /\
    (forall i j, inb wsz i -> inb wnm j ->
       sget y (i ++ j) = sget x' (map2 Nat.add i j) /\
       (inb (sshape x) (map2 Nat.add i j) -> sget y (i ++ j) = sget x (map2 Nat.add i j))) /\
    ((forall i j, inb wsz i -> inb wnm j -> inb (sshape x) (map2 Nat.add i j)) -> Forall (fun w => 0 < w) wsz ->
     Forall (fun w => 0 < w) wnm -> x' = x).
Proof.
  intros Hpad Hst Hw Hm. unfold rolling_window.
  set (over := map2 (fun wm n => wm - n - 1) (map2 Nat.add wsz wnm) (sshape x)).
  assert (Lo : length over = length (sshape x)).
  { unfold over. rewrite map2_length; rewrite map2_length; congruence. }
  set (b := existsb (fun p => Nat.ltb 0 p) over).
  exists (if b then pad x over else x), over. split; [destruct b; auto|].
  set (x' := if b then pad x over else x).
  destruct (Hpad x over Lo) as (P1 & P2 & P3).
  assert (Lst : length (strides x') = length (sshape x)) by (unfold x'; destruct b; congruence).
  assert (IN : forall i j, inb wsz i -> inb wnm j -> inb (sshape x') (map2 Nat.add i j)).
  { intros i j Hi Hj. unfold x'. destruct b eqn:Eb.
    - rewrite P1. apply roll_pad_inb; assumption.
    - apply (no_over_inb (sshape x) wsz wnm); assumption. }
  assert (AD : forall i j, inb wsz i -> inb wnm j ->
       addr (as_strided x' (wsz ++ wnm) (strides x' ++ strides x')) (i ++ j) = addr x' (map2 Nat.add i j)).
  { intros i j Hi Hj. apply inb_length in Hi. apply inb_length in Hj. unfold addr. cbn [base strides as_strided].
    rewrite offset_app by congruence. rewrite offset_add by congruence. reflexivity. }
  assert (Gt : forall i j, inb wsz i -> inb wnm j ->
       sget (as_strided x' (wsz ++ wnm) (strides x' ++ strides x')) (i ++ j) = sget x' (map2 Nat.add i j)).
  { intros i j Hi Hj. unfold sget. rewrite AD by assumption. reflexivity. }
  split; [reflexivity|]. split; [|split].
  - split; [reflexivity|]. intros idx Hidx. cbn [sshape as_strided] in Hidx. apply inb_app_inv in Hidx.
    destruct Hidx as (i & j & -> & Hi & Hj). exists (map2 Nat.add i j). split; [apply IN|apply AD]; assumption.
  - intros i j Hi Hj. split; [apply Gt; assumption|]. intros Hx. rewrite Gt by assumption. unfold x'. destruct b; [|reflexivity].
    apply P3. exact Hx.
  - intros Hall Hwp Hmp. unfold x'. destruct b eqn:Eb; [exfalso|reflexivity]. unfold b in Eb.
    assert (Mi : forall l, Forall (fun w => 0 < w) l -> inb l (map (fun w => w - 1) l)).
    { clear. induction 1; simpl; constructor; [lia|assumption]. }
    specialize (Hall _ _ (Mi _ Hwp) (Mi _ Hmp)). unfold over in Eb. clear - Hall Eb Hw Hm Hwp Hmp.
    revert wsz wnm Hw Hm Hwp Hmp Hall Eb. generalize (sshape x) as s.
    induction s as [|n s IH]; intros [|w ws] [|m ms] Hw Hm Hwp Hmp Hall Eb; simpl in *; try discriminate.
    inversion Hwp. inversion Hmp. subst. apply inb_cons in Hall. destruct Hall as [Hl1 Hl2].
    apply orb_true_iff in Eb. destruct Eb as [Eb|Eb].
    + apply Nat.ltb_lt in Eb. lia.
    + apply (IH ws ms); try lia; assumption.
Qed.
Print Assumptions C13_rolling_window_count.

Lemma offset_cstrides s idx : inb s idx -> offset (cstrides s) idx = Z.of_nat (ravel s idx).
Proof. induction 1 as [|i n idx s H _ IH]; simpl; [reflexivity|]. rewrite IH. lia. Qed.

(** The contract on padding is met by the default mode of rolling_window, which repeats the array periodically. *)
Theorem C13_wrap (A : Type) (x : sarr A) (p : list nat) :
  length p = length (sshape x) ->
  forall idx, inb (map2 Nat.add (sshape x) p) idx -> sget (pad_wrap x p) idx = sget x (map2 Nat.modulo idx (sshape x)).
Proof.
  intros Hp idx Hi. unfold sget at 1, addr, pad_wrap. cbn [mem base strides]. rewrite offset_cstrides by exact Hi.
  rewrite Z.add_0_l, Nat2Z.id, unravel_ravel by exact Hi. reflexivity.
Qed.
Print Assumptions C13_wrap.
Lemma mod_inb s idx : inb s idx -> map2 Nat.modulo idx s = idx.
Proof. induction 1 as [|i n idx s H _ IH]; cbn [map2]; [reflexivity|]. rewrite IH, Nat.mod_small by exact H. reflexivity. Qed.
Lemma inb_pad s : forall p idx, length p = length s -> inb s idx -> inb (map2 Nat.add s p) idx.
Proof.
  induction s as [|n s IH]; intros [|q p] [|i idx] H Hi; simpl in *; try discriminate; try (inversion Hi; fail); [constructor|].
  apply inb_cons in Hi. apply inb_cons. split; [lia|]. apply IH; [lia|tauto].
Qed.
Lemma cstrides_length s : length (cstrides s) = length s. Proof. induction s; simpl; auto. Qed.
Theorem C13_wrap_contract (A : Type) : pad_contract (@pad_wrap A).
Proof.
  intros x p Hp. split; [reflexivity|]. split; [unfold pad_wrap; cbn [strides]; rewrite cstrides_length; apply map2_length; congruence|].
  intros idx Hi. rewrite C13_wrap by (auto using inb_pad). rewrite mod_inb by exact Hi. reflexivity.
Qed.
Print Assumptions C13_wrap_contract.
Example C13_rolling_count_ex : let y := rolling_window nat pad_wrap x45 [3; 3] [4; 5] in
  (sshape y, sget y [0; 0; 3; 4], sget y [2; 2; 3; 4], sget y [1; 0; 3; 0]) = ([3; 3; 4; 5], 19, 6, 0).
Proof. reflexivity. Qed.

(** Subsampling: error exactly when some step is at least the axis length; otherwise y[i,p] = x[i + step*p] inside the
    (padded) array, with every sample of the array kept when padding is requested. *)
Theorem C13_subsample (A : Type) (pad : sarr A -> list nat -> sarr A) (x : sarr A) (step : list nat) (padf : bool) :
  pad_contract pad ->
  length (strides x) = length (sshape x) -> length step = length (sshape x) -> Forall (fun s => 0 < s) step ->
  match subsample_array A pad x step padf with
  | None => exists k n s, nth_error (sshape x) k = Some n /\ nth_error step k = Some s /\ n <= s
  | Some y =>
      Forall2 (fun s n => s < n) step (sshape x) /\
      exists x' p sb, (x' = x \/ padf = true /\ x' = pad x p) /\ inside y x' /\ sshape y = step ++ sb /\
      (forall i j, inb step i -> inb sb j ->
         sget y (i ++ j) = sget x' (map2 Nat.add i (map2 Nat.mul step j)) /\
         (inb (sshape x) (map2 Nat.add i (map2 Nat.mul step j)) ->
          sget y (i ++ j) = sget x (map2 Nat.add i (map2 Nat.mul step j)))) /\
      (padf = true -> forall k, inb (sshape x) k ->
         exists i j, inb step i /\ inb sb j /\ k = map2 Nat.add i (map2 Nat.mul step j))
  end.
Proof.
  intros Hpad Hst Hs Hpos. unfold subsample_array. destruct (existsb _ _) eqn:E.
  - apply existsb_exists in E. destruct E as (z & Hz & ->).
    clear Hst Hpos Hpad. revert Hs Hz. generalize (sshape x) as sh, step as st. induction sh as [|n s IH]; intros [|w ws] Hw Hz; simpl in *; try discriminate; [contradiction|].
    destruct Hz as [Hz|Hz].
    + exists 0, n, w. apply Nat.leb_le in Hz. auto.
    + destruct (IH ws ltac:(lia) Hz) as (k & n' & w' & K1 & K2 & K3). exists (S k), n', w'. auto.
  - assert (Lt : Forall2 (fun s n => s < n) step (sshape x)).
    { clear - E Hs. revert Hs E. generalize (sshape x) as sh, step as st. induction sh as [|n s IH]; intros [|w ws] Hw E; simpl in *; try discriminate; [constructor|].
      apply orb_false_iff in E. destruct E as [E1 E2]. apply Nat.leb_gt in E1. constructor; [exact E1|apply IH; [lia|exact E2]]. }
    set (sbsz := map2 Nat.div (sshape x) step). set (dvmd := map2 Nat.modulo (sshape x) step).
    set (sb' := map2 (fun q d => q + Nat.min d 1) sbsz dvmd).
    set (psz := map2 (fun qs n => qs - n) (map2 Nat.mul sb' step) (sshape x)).
    assert (L1 : length sbsz = length (sshape x)) by (unfold sbsz; rewrite map2_length; congruence).
    assert (L2 : length dvmd = length (sshape x)) by (unfold dvmd; rewrite map2_length; congruence).
    assert (L3 : length sb' = length (sshape x)) by (unfold sb'; rewrite map2_length; congruence).
    assert (L4 : length psz = length (sshape x)) by (unfold psz; rewrite map2_length; rewrite map2_length; congruence).
    destruct (Hpad x psz L4) as (P1 & P2 & P3).
    assert (Gen : forall (x' : sarr A) (sb : list nat), length (strides x') = length (sshape x) -> length sb = length (sshape x) ->
       (forall i j, inb step i -> inb sb j -> inb (sshape x') (map2 Nat.add i (map2 Nat.mul step j))) ->
       let y := as_strided x' (step ++ sb) (strides x' ++ map2 (fun s t => (Z.of_nat s * t)%Z) step (strides x')) in
       inside y x' /\ (forall i j, inb step i -> inb sb j -> sget y (i ++ j) = sget x' (map2 Nat.add i (map2 Nat.mul step j)))).
    { intros x' sb Lx' Lsb IN y.
      assert (AD : forall i j, inb step i -> inb sb j -> addr y (i ++ j) = addr x' (map2 Nat.add i (map2 Nat.mul step j))).
      { intros i j Hi Hj. apply inb_length in Hi. apply inb_length in Hj. unfold addr, y. cbn [base strides as_strided].
        rewrite offset_app by congruence. rewrite offset_mul by congruence.
        rewrite offset_add; [reflexivity|congruence|]. rewrite map2_length; congruence. }
      split; [split; [reflexivity|]|].
      - intros idx Hidx. unfold y in Hidx. cbn [sshape as_strided] in Hidx. apply inb_app_inv in Hidx.
        destruct Hidx as (i & j & -> & Hi & Hj). eexists. split; [apply IN; eassumption|apply AD; assumption].
      - intros i j Hi Hj. unfold sget. rewrite AD by assumption. reflexivity. }
    assert (Cover : forall sb, sb = sb' \/ (existsb (fun d => negb (Nat.eqb d 0)) dvmd = false /\ sb = sbsz) ->
       forall k, inb (sshape x) k -> exists i j, inb step i /\ inb sb j /\ k = map2 Nat.add i (map2 Nat.mul step j)).
    { clear - Hs Hpos. unfold sb', sbsz, dvmd. revert Hs Hpos. generalize (sshape x) as sh, step as st.
      induction sh as [|n s IH]; intros [|w ws] Hw Hpos sb Hsb k Hk; simpl in *; try discriminate.
      - inversion Hk. exists [], []. destruct Hsb as [->|[_ ->]]; repeat split; constructor.
      - destruct k as [|a k]; [inversion Hk|]. apply inb_cons in Hk. destruct Hk as [Hk1 Hk2].
        inversion Hpos as [|? ? Hp1 Hp2]. subst.
        pose proof (Nat.div_mod a w ltac:(lia)) as DM. pose proof (Nat.mod_upper_bound a w ltac:(lia)) as MB.
        pose proof (Nat.div_mod n w ltac:(lia)) as DN. pose proof (Nat.mod_upper_bound n w ltac:(lia)) as NB.
        destruct sb as [|q sb]; [destruct Hsb as [Q|[_ Q]]; discriminate|].
        assert (Q : a / w < q /\ (sb = map2 (fun q d => q + Nat.min d 1) (map2 Nat.div s ws) (map2 Nat.modulo s ws) \/
             existsb (fun d => negb (d =? 0)) (map2 Nat.modulo s ws) = false /\ sb = map2 Nat.div s ws)).
        { destruct Hsb as [Q|[Q0 Q]].
          - injection Q as -> ->. split; [|left; reflexivity].
            apply Nat.div_lt_upper_bound; [lia|]. destruct (n mod w) eqn:Em; simpl; nia.
          - injection Q as -> ->. apply orb_false_iff in Q0. destruct Q0 as [Q1 Q2]. apply negb_false_iff, Nat.eqb_eq in Q1.
            split; [|right; auto]. apply Nat.div_lt_upper_bound; [lia|]. lia. }
        destruct Q as [Q1 Q2].
        destruct (IH ws ltac:(lia) Hp2 sb Q2 k Hk2) as (i & j & Hi & Hj & ->).
        exists (a mod w :: i), (a / w :: j). split; [apply inb_cons; auto|]. split; [apply inb_cons; auto|].
        simpl. f_equal. lia. }
    destruct (padf && existsb (fun d => negb (Nat.eqb d 0)) dvmd) eqn:Eb; (split; [exact Lt|]).
    + apply andb_true_iff in Eb. destruct Eb as [Eb1 Eb2].
      destruct (Gen (pad x psz) sb' ltac:(congruence) L3) as [G1 G2].
      { intros i j Hi Hj. rewrite P1. apply sub_pad_inb; assumption. }
      exists (pad x psz), psz, sb'. split; [right; auto|]. split; [exact G1|]. split; [reflexivity|]. split.
      * intros i j Hi Hj. split; [apply G2; assumption|]. intros Hx. rewrite G2 by assumption. apply P3. exact Hx.
      * intros _. apply Cover. left. reflexivity.
    + destruct (Gen x sbsz ltac:(congruence) L1) as [G1 G2].
      { intros i j Hi Hj. apply sub_inb; assumption. }
      exists x, psz, sbsz. split; [left; reflexivity|]. split; [exact G1|]. split; [reflexivity|]. split.
      * intros i j Hi Hj. split; intros; apply G2; assumption.
      * intros ->. simpl in Eb. apply Cover. right. auto.
Qed.
Print Assumptions C13_subsample.
Example C13_subsample_ex : option_map (fun y => (sshape y, sget y [1; 1; 1; 1], sget y [0; 0; 1; 2])) (subsample_array nat pad_wrap x45 [2; 2] true) = Some ([2; 2; 2; 3], 18, 14).
Proof. reflexivity. Qed.
Example C13_subsample_err : subsample_array nat pad_wrap x45 [2; 5] false = None.
Proof. reflexivity. Qed.

(** ** C14 *)
Lemma src_at : forall i stp p q, length p = length i -> length stp = length i -> src (p ++ q) stp i = at_block stp i p q.
Proof.
  unfold at_block. induction i as [|a i IH]; intros stp p q Hp Hs; destruct p; destruct stp; simpl in *; try discriminate; [reflexivity|].
  f_equal. apply IH; lia.
Qed.

Lemma split_at {A} (l : list A) n : n <= length l -> exists p q, l = p ++ q /\ length p = n.
Proof. intros H. exists (firstn n l), (skipn n l). split; [symmetry; apply firstn_skipn|]. rewrite firstn_length. lia. Qed.

Lemma covers_inslice blksz stp pos idx : length blksz <= length pos -> length stp = length blksz ->
  (inslice pos blksz stp idx = true <-> exists i, covers blksz stp pos idx i).
Proof.
  intros Hl Hs. split.
  - intros H. apply inslice_src in H; [|assumption|assumption]. destruct H as [Hi He].
    exists (inblock pos blksz stp idx). destruct (split_at pos (length blksz) Hl) as (p & q & -> & Hp).
    exists p, q. split; [reflexivity|]. split; [exact Hp|]. split; [exact Hi|].
    apply inb_length in Hi. rewrite <- src_at by congruence. symmetry. exact He.
  - intros (i & p & q & -> & Hp & Hi & ->). clear Hl. revert blksz stp p Hs Hp Hi.
    induction i as [|a i IH]; intros blksz stp p Hs Hp Hi.
    + inversion Hi. subst. destruct p; [|discriminate]. cbn [inslice]. apply eqlist_iff. unfold at_block. reflexivity.
    + destruct blksz as [|b blksz]; [inversion Hi|]. apply inb_cons in Hi. destruct stp as [|c stp]; [discriminate|].
      destruct p as [|x p]; [discriminate|]. cbn [app inslice]. unfold at_block. cbn [map2 app].
      rewrite !andb_true_iff, Nat.leb_le, Nat.ltb_lt. split; [lia|].
      apply (IH blksz stp p); simpl in *; try lia; tauto.
Qed.

Lemma covers_inblock blksz stp pos idx i : length stp = length blksz -> covers blksz stp pos idx i -> inblock pos blksz stp idx = i.
Proof.
  intros Hs (p & q & -> & Hp & Hi & ->). revert blksz stp p Hs Hp Hi.
  induction i as [|a i IH]; intros blksz stp p Hs Hp Hi.
  - inversion Hi. reflexivity.
  - destruct blksz as [|b blksz]; [inversion Hi|]. apply inb_cons in Hi. destruct stp as [|c stp]; [discriminate|].
    destruct p as [|x p]; [discriminate|]. unfold at_block. cbn [app map2 inblock]. f_equal; [lia|].
    apply (IH blksz stp p); simpl in *; try lia; tauto.
Qed.

(** The grid of blocks is exactly the set of blocks inside the signal. *)
Lemma grid_exact imgsz : forall blksz stp pos, length blksz <= length imgsz -> length stp = length blksz ->
  Forall (fun c => 0 < c) stp -> Forall (fun b => 0 < b) blksz ->
  existsb (fun z => Z.ltb z 0) (numblocks_z imgsz blksz stp) = false -> length pos = length imgsz ->
  block_inside imgsz blksz stp pos -> inb (numblocks imgsz blksz stp) pos.
Proof.
  unfold numblocks. induction imgsz as [|a r IH]; intros blksz stp pos Hl Hs Hc Hb Hz Hp (p & q & -> & Lp & H).
  - destruct p; destruct q; try discriminate. constructor.
  - destruct blksz as [|b blksz].
    + destruct stp; [|discriminate]. destruct p; [|discriminate]. rewrite nb_trailing, map_map.
      rewrite (map_ext _ (fun x => x)) by (intros; apply Nat2Z.id). rewrite map_id.
      apply (H []). constructor.
    + destruct stp as [|c stp]; [discriminate|]. destruct p as [|x p]; [discriminate|].
      cbn [numblocks_z hd tl existsb map] in *. apply orb_false_iff in Hz. destruct Hz as [Hz1 Hz2].
      inversion Hc as [|? ? Hc1 Hc2]. inversion Hb as [|? ? Hb1 Hb2]. subst.
      assert (Z0 : inb blksz (map (fun w => w - 1) blksz)).
      { clear -Hb2. induction Hb2; simpl; constructor; [lia|assumption]. }
      assert (K1 := H ((b - 1) :: map (fun w => w - 1) blksz) ltac:(apply inb_cons; split; [lia|exact Z0])).
      unfold at_block in K1. cbn [map2 app] in K1. apply inb_cons in K1. destruct K1 as [K1 _].
      apply inb_cons. split.
      * assert ((Z.of_nat x <= (Z.of_nat a - Z.of_nat b) / Z.of_nat c)%Z) by (apply Z.div_le_lower_bound; nia). lia.
      * apply (IH blksz stp (p ++ q)); simpl in *; try lia; try assumption.
        exists p, q. split; [reflexivity|]. split; [lia|]. intros i Hi.
        assert (K2 := H (0 :: i) ltac:(apply inb_cons; split; [lia|exact Hi])).
        unfold at_block in K2. cbn [map2 app] in K2. apply inb_cons in K2. tauto.
Qed.

Lemma grid_iff imgsz blksz stp pos : length blksz <= length imgsz -> length stp = length blksz ->
  Forall (fun c => 0 < c) stp -> Forall (fun b => 0 < b) blksz ->
  existsb (fun z => Z.ltb z 0) (numblocks_z imgsz blksz stp) = false -> length pos = length imgsz ->
  (inb (numblocks imgsz blksz stp) pos <-> block_inside imgsz blksz stp pos).
Proof.
  intros Hl Hs Hc Hb Hz Hp. split; [|apply grid_exact; assumption].
  intros H. destruct (split_at pos (length blksz) ltac:(lia)) as (p & q & -> & Lp).
  exists p, q. split; [reflexivity|]. split; [exact Lp|]. intros i Hi. rewrite <- src_at by (apply inb_length in Hi; congruence).
  apply (src_inb imgsz blksz stp); assumption.
Qed.

(** Extraction: the blocks on the grid are exactly those inside the signal, block number k is the block at the k-th grid
    position in C order, and the view reads only elements of the signal. *)
Theorem C14_extract (A : Type) (img : sarr A) (blksz stp : list nat) :
  length (strides img) = length (sshape img) -> length blksz <= length (sshape img) -> length stp = length blksz ->
  Forall (fun c => 0 < c) stp -> Forall (fun b => 0 < b) blksz ->
  match extract_blocks img blksz stp with
  | None => exists k n b c, nth_error (sshape img) k = Some n /\ nth_error blksz k = Some b /\ nth_error stp k = Some c /\ n < b
  | Some y => exists grid,
      shape y = blksz ++ [prod grid] /\ length grid = length (sshape img) /\
      (forall pos, length pos = length grid -> (inb grid pos <-> block_inside (sshape img) blksz stp pos)) /\
      forall i p q, inb blksz i -> length p = length blksz -> inb grid (p ++ q) ->
        inb (sshape img) (at_block stp i p q) /\
        get y (i ++ [ravel grid (p ++ q)]) = sget img (at_block stp i p q)
  end.
Proof.
  intros Hst Hl Hs Hc Hb. destruct (extract_blocks img blksz stp) as [y|] eqn:E.
  - assert (Hz : existsb (fun z => Z.ltb z 0) (numblocks_z (sshape img) blksz stp) = false).
    { unfold extract_blocks in E. destruct (existsb _ _); [discriminate|reflexivity]. }
    exists (numblocks (sshape img) blksz stp).
    assert (Lg : length (numblocks (sshape img) blksz stp) = length (sshape img)).
    { unfold numblocks. rewrite map_length, nb_length. reflexivity. }
    split; [|split; [exact Lg|split]].
    + unfold extract_blocks in E. rewrite Hz in E. injection E as <-. reflexivity.
    + intros pos Hp. split.
      * intros H. destruct (split_at pos (length blksz) ltac:(lia)) as (p & q & -> & Lp).
        exists p, q. split; [reflexivity|]. split; [exact Lp|]. intros i Hi. rewrite <- src_at by (apply inb_length in Hi; congruence).
        apply (src_inb (sshape img) blksz stp); assumption.
      * intros H. apply grid_exact; try assumption. congruence.
    + intros i p q Hi Hp Hg.
      rewrite <- (src_at i stp p q) by (apply inb_length in Hi; congruence). split.
      * apply (src_inb (sshape img) blksz stp); assumption.
      * eapply extract_get; eassumption.
  - unfold extract_blocks in E. destruct (existsb _ _) eqn:Hz; [|discriminate]. clear E Hst.
    apply existsb_exists in Hz. destruct Hz as (z & Hz & Hneg). apply Z.ltb_lt in Hneg.
    revert blksz stp Hl Hs Hc Hb Hz. generalize (sshape img) as s. induction s as [|a r IH]; intros blksz stp Hl Hs Hc Hb Hz; [contradiction|].
    destruct blksz as [|b blksz].
    + destruct stp; [|discriminate]. rewrite nb_trailing in Hz. apply in_map_iff in Hz. destruct Hz as (n & <- & _). lia.
    + destruct stp as [|c stp]; [discriminate|]. inversion Hc as [|? ? Hc1 Hc2]. inversion Hb as [|? ? Hb1 Hb2]. subst.
      cbn [numblocks_z hd tl] in Hz. destruct Hz as [Hz|Hz].
      * exists 0, a, b, c. repeat split. destruct (le_lt_dec b a) as [Q|Q]; [exfalso|exact Q].
        assert ((0 <= (Z.of_nat a - Z.of_nat b) / Z.of_nat c)%Z) by (apply Z.div_pos; lia). lia.
      * destruct (IH blksz stp ltac:(simpl in *; lia) ltac:(simpl in *; lia) Hc2 Hb2 Hz) as (k & n & b' & c' & K). exists (S k), n, b', c'. exact K.
Qed.
Print Assumptions C14_extract.
Example C14_extract_ex : option_map (fun y => (shape y, map (fun k => map (get y) [[0; 0; k]; [0; 1; k]; [1; 0; k]; [1; 1; k]]) [0; 1; 2; 3]))
    (extract_blocks x45 [2; 2] [2; 3]) =
  Some ([2; 2; 4], [[0; 1; 5; 6]; [3; 4; 8; 9]; [10; 11; 15; 16]; [13; 14; 18; 19]]).
Proof. reflexivity. Qed.

(** Combining any blocks: the value at [idx] is the function applied to the values at [idx] of the blocks which cover it,
    each once, in grid order. *)
Theorem C14_combine (A : Type) (fn : list A -> A) (blks : arr A) (blksz imgsz stp idx : list nat) :
  length blksz <= length imgsz -> length stp = length blksz ->
  shape blks = blksz ++ [prod (numblocks imgsz blksz stp)] ->
  exists cov : list (list nat * list nat),
    NoDup (map fst cov) /\
    (forall pos i, In (pos, i) cov <-> inb (numblocks imgsz blksz stp) pos /\ covers blksz stp pos idx i) /\
    combine_blocks A fn blks blksz imgsz stp idx =
      fn (map (fun pi => get blks (snd pi ++ [ravel (numblocks imgsz blksz stp) (fst pi)])) cov).
Proof.
  intros Hl Hs Hsh. set (nb := numblocks imgsz blksz stp) in *.
  exists (map (fun pos => (pos, inblock pos blksz stp idx)) (covering blksz imgsz stp idx)).
  assert (Lp : forall pos, inb nb pos -> length blksz <= length pos).
  { intros pos Hp. rewrite (inb_length _ _ Hp). unfold nb, numblocks. rewrite map_length, nb_length. exact Hl. }
  split; [|split].
  - rewrite map_map. simpl. rewrite map_id. apply NoDup_filter, NoDup_indices.
  - intros pos i. rewrite in_map_iff. unfold covering. split.
    + intros (p' & [= -> <-] & H). apply filter_In in H. destruct H as [H1 H2]. apply in_indices in H1. split; [exact H1|].
      apply covers_inslice in H2; [|apply Lp; exact H1|exact Hs]. destruct H2 as [i' H2].
      rewrite (covers_inblock blksz stp pos idx i' Hs H2). exact H2.
    + intros [H1 H2]. exists pos. split; [f_equal; apply covers_inblock; assumption|]. apply filter_In. split; [apply in_indices; exact H1|].
      apply covers_inslice; [apply Lp; exact H1|exact Hs|]. exists i. exact H2.
  - unfold combine_blocks. rewrite blocks_fold_values, fold_app_list. simpl app. f_equal. unfold cover_values. rewrite map_map.
    apply map_ext_in. intros pos H. cbn [fst snd]. unfold covering in H. apply filter_In in H. destruct H as [H1 H2]. apply in_indices in H1.
    apply inslice_src in H2; [|apply Lp; exact H1|exact Hs]. destruct H2 as [Hi _].
    fold nb. unfold reshape. cbn [get]. rewrite Hsh.
    assert (E : ravel (blksz ++ nb) (inblock pos blksz stp idx ++ pos) = ravel (blksz ++ [prod nb]) (inblock pos blksz stp idx ++ [ravel nb pos])).
    { rewrite !ravel_app by (apply inb_length; exact Hi). simpl. lia. }
    rewrite E, unravel_ravel; [reflexivity|]. apply inb_app; [apply inb_length; exact Hi|]. split; [exact Hi|].
    constructor; [apply ravel_lt; exact H1|constructor].
Qed.
Print Assumptions C14_combine.

Lemma fold_sum l : forall a, fold_left (fun s y => (s + y)%R) l a = (a + rsum l)%R.
Proof. induction l as [|x l IH]; intros a; simpl; [lra|]. rewrite IH. lra. Qed.
Lemma fold_count (l : list R) : forall a, fold_left (fun s _ => (s + 1)%R) l a = (a + INR (length l))%R.
Proof.
  induction l as [|x l IH]; intros a; [simpl; lra|]. cbn [fold_left length]. rewrite IH, S_INR. lra.
Qed.

(** Averaging is combination with the mean where some block covers the position, and undefined elsewhere. *)
Theorem C14_average (blks : arr R) (blksz imgsz stp idx : list nat) :
  length blksz <= length imgsz -> length stp = length blksz ->
  ((exists pos i, inb (numblocks imgsz blksz stp) pos /\ covers blksz stp pos idx i) ->
    average_blocks blks blksz imgsz stp idx = Some (combine_blocks R mean blks blksz imgsz stp idx)) /\
  ((forall pos i, inb (numblocks imgsz blksz stp) pos -> ~ covers blksz stp pos idx i) ->
    average_blocks blks blksz imgsz stp idx = None).
Proof.
  intros Hl Hs. unfold average_blocks, combine_blocks. rewrite !blocks_fold_values, fold_app_list, fold_sum, fold_count. simpl app.
  rewrite !Rplus_0_l.
  assert (Lp : forall pos, inb (numblocks imgsz blksz stp) pos -> length blksz <= length pos).
  { intros pos Hp. rewrite (inb_length _ _ Hp). unfold numblocks. rewrite map_length, nb_length. exact Hl. }
  split.
  - intros (pos & i & H1 & H2). destruct (Rlt_dec _ _) as [Q|Q]; [reflexivity|]. exfalso. apply Q. apply lt_0_INR.
    unfold cover_values. rewrite map_length.
    assert (In pos (covering blksz imgsz stp idx)).
    { apply filter_In. split; [apply in_indices; exact H1|]. apply covers_inslice; [apply Lp; exact H1|exact Hs|exists i; exact H2]. }
    destruct (covering blksz imgsz stp idx); [contradiction|simpl; lia].
  - intros H. destruct (Rlt_dec _ _) as [Q|Q]; [|reflexivity]. exfalso.
    unfold cover_values in Q. rewrite map_length in Q.
    destruct (covering blksz imgsz stp idx) as [|pos l] eqn:E; [simpl in Q; lra|].
    assert (K : In pos (covering blksz imgsz stp idx)) by (rewrite E; left; reflexivity).
    apply filter_In in K. destruct K as [K1 K2]. apply in_indices in K1.
    apply covers_inslice in K2; [|apply Lp; exact K1|exact Hs]. destruct K2 as [i K2]. apply (H pos i K1 K2).
Qed.
Print Assumptions C14_average.

(** Unmodified blocks: any function which maps constant lists to the constant reproduces the signal at covered positions. *)
Theorem C14_combine_extracted (A : Type) (fn : list A -> A) (img : sarr A) (blksz stp idx : list nat) y :
  length (strides img) = length (sshape img) -> length blksz <= length (sshape img) -> length stp = length blksz ->
  (forall v n, 0 < n -> fn (repeat v n) = v) ->
  extract_blocks img blksz stp = Some y ->
  (exists pos i, inb (numblocks (sshape img) blksz stp) pos /\ covers blksz stp pos idx i) ->
  combine_blocks A fn y blksz (sshape img) stp idx = sget img idx.
Proof.
  intros Hst Hl Hs Hfn He (pos & i & H1 & H2). unfold combine_blocks. rewrite blocks_fold_values, fold_app_list. simpl app.
  rewrite (extract_values img blksz stp y idx Hst Hl Hs He).
  assert (K : In pos (covering blksz (sshape img) stp idx)).
  { apply filter_In. split; [apply in_indices; exact H1|].
    apply covers_inslice; [|exact Hs|exists i; exact H2]. rewrite (inb_length _ _ H1). unfold numblocks. rewrite map_length, nb_length. exact Hl. }
  assert (E : forall (l : list (list nat)) (v : A), map (fun _ => v) l = repeat v (length l)) by (induction l; intros; simpl; [reflexivity|f_equal; auto]).
  rewrite E. apply Hfn. destruct (covering _ _ _ _); [contradiction|simpl; lia].
Qed.
Print Assumptions C14_combine_extracted.

Lemma mean_repeat v n : 0 < n -> mean (repeat v n) = v.
Proof.
  intros H. unfold mean. rewrite repeat_length.
  assert (E : rsum (repeat v n) = (INR n * v)%R).
  { clear H. induction n as [|n IH]; [simpl; lra|]. rewrite S_INR. cbn [repeat rsum]. rewrite IH. lra. }
  rewrite E. field. apply not_0_INR. lia.
Qed.

(** Averaging unmodified blocks reproduces the signal at every position covered by a block inside the signal and is
    undefined elsewhere; so does combination with a function which maps constant lists to the constant, at the covered
    positions. *)
Theorem C14_average_extracted (img : sarr R) (blksz stp idx : list nat) y :
  length (strides img) = length (sshape img) -> length blksz <= length (sshape img) -> length stp = length blksz ->
  Forall (fun c => 0 < c) stp -> Forall (fun b => 0 < b) blksz ->
  extract_blocks img blksz stp = Some y ->
  let covered := exists pos i, length pos = length (sshape img) /\ block_inside (sshape img) blksz stp pos /\ covers blksz stp pos idx i in
  (covered -> average_blocks y blksz (sshape img) stp idx = Some (sget img idx)) /\
  (~ covered -> average_blocks y blksz (sshape img) stp idx = None) /\
  (covered -> forall fn, (forall v n, 0 < n -> fn (repeat v n) = v) -> combine_blocks R fn y blksz (sshape img) stp idx = sget img idx).
Proof.
  intros Hst Hl Hs Hc Hb He covered. destruct (C14_average y blksz (sshape img) stp idx Hl Hs) as [H1 H2].
  assert (Hz : existsb (fun z => Z.ltb z 0) (numblocks_z (sshape img) blksz stp) = false).
  { unfold extract_blocks in He. destruct (existsb _ _); [discriminate|reflexivity]. }
  assert (G : forall pos, length pos = length (sshape img) -> inb (numblocks (sshape img) blksz stp) pos <-> block_inside (sshape img) blksz stp pos)
    by (intros; apply grid_iff; assumption).
  assert (Lg : forall pos, inb (numblocks (sshape img) blksz stp) pos -> length pos = length (sshape img)).
  { intros pos Hp. rewrite (inb_length _ _ Hp). unfold numblocks. rewrite map_length, nb_length. reflexivity. }
  assert (C : covered -> exists pos i, inb (numblocks (sshape img) blksz stp) pos /\ covers blksz stp pos idx i).
  { intros (pos & i & L & H & K). exists pos, i. split; [apply G; assumption|exact K]. }
  split; [|split].
  - intros H. rewrite (H1 (C H)). f_equal. apply C14_combine_extracted; try assumption; [intros v n; apply mean_repeat|exact (C H)].
  - intros H. apply H2. intros pos i K1 K2. apply H. exists pos, i. split; [apply Lg; exact K1|]. split; [apply G; [apply Lg|]; exact K1|exact K2].
  - intros H fn Hfn. apply C14_combine_extracted; try assumption. exact (C H).
Qed.
Print Assumptions C14_average_extracted.
(** On a 4 by 5 array with 2 by 2 blocks and steps 2 by 3, column 2 is covered by no block, position (2,4) by one. *)
Example C14_covered_ex : covers [2; 2] [2; 3] [1; 1] [2; 4] [0; 1] /\ inb (numblocks [4; 5] [2; 2] [2; 3]) [1; 1].
Proof.
  split; [|repeat constructor]. exists [1; 1], []. repeat split. repeat constructor.
Qed.
Example C14_combine_ex : option_map (fun y => map (combine_blocks nat (fun l => hd 99 l) y [2; 2] [4; 5] [2; 3]) [[2; 4]; [3; 2]; [1; 1]])
  (extract_blocks x45 [2; 2] [2; 3]) = Some [14; 99; 6].
Proof. reflexivity. Qed.
