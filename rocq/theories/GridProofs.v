Require Import List Arith Bool Lia.
Require Import Verif.GridModel Verif.GridSpec.
Import ListNotations.

Lemma product_length {A} (grd : list (list A)) : length (product grd) = prod_list (map (@length A) grd).
Proof.
  induction grd as [|g gs IH]; [reflexivity|]. simpl.
  induction g as [|a g IHg]; [reflexivity|]. simpl. rewrite app_length, map_length, IH, IHg. reflexivity.
Qed.

Lemma flat_map_cons_nth {A} (g : list A) (L : list (list A)) i :
  L <> [] ->
  nth_error (flat_map (fun a => map (cons a) L) g) i =
  match nth_error g (i / length L), nth_error L (i mod length L) with
  | Some a, Some p => Some (a :: p)
  | _, _ => None
  end.
Proof.
  intros HL. assert (Hl : length L <> 0) by (destruct L; simpl; congruence).
  revert i. induction g as [|a g IH]; intros i; simpl.
  - destruct (i / length L); simpl; destruct i; reflexivity.
  - destruct (lt_dec i (length L)) as [Hi|Hi].
    + rewrite nth_error_app1 by (rewrite map_length; exact Hi).
      rewrite Nat.div_small, Nat.mod_small by exact Hi. simpl.
      rewrite nth_error_map. destruct (nth_error L i); reflexivity.
    + rewrite nth_error_app2 by (rewrite map_length; lia). rewrite map_length, IH.
      assert (Hd : i / length L = S ((i - length L) / length L)).
      { replace i with (i - length L + 1 * length L) at 1 by lia. rewrite Nat.div_add by exact Hl. lia. }
      assert (Hm : i mod length L = (i - length L) mod length L).
      { replace i with (i - length L + 1 * length L) at 1 by lia. rewrite Nat.mod_add by exact Hl. reflexivity. }
      rewrite Hd, Hm. simpl. reflexivity.
Qed.

Lemma prod_list_pos shape : (forall n, In n shape -> n <> 0) -> prod_list shape <> 0.
Proof.
  induction shape as [|n ns IH]; simpl; intros H; [discriminate|].
  apply Nat.neq_mul_0. split; [apply H; left; reflexivity|]. apply IH. intros m Hm. apply H. right. exact Hm.
Qed.

Lemma product_nth {A} (grd : list (list A)) : forall i,
  i < length (product grd) -> nth_error (product grd) i = pick grd (unravel (map (@length A) grd) i).
Proof.
  induction grd as [|g gs IH]; intros i Hi.
  - simpl in *. assert (i = 0) by lia. subst. reflexivity.
  - rewrite product_length in Hi. simpl in Hi.
    assert (Hp : prod_list (map (@length A) gs) <> 0) by (intros E; rewrite E in Hi; lia).
    assert (HL : product gs <> []).
    { intros E. pose proof (product_length gs) as H. rewrite E in H. simpl in H. congruence. }
    simpl product. rewrite (flat_map_cons_nth g (product gs) i HL). simpl. rewrite product_length.
    rewrite <- (IH (i mod prod_list (map (@length A) gs))); [reflexivity|].
    rewrite product_length. apply Nat.mod_upper_bound. exact Hp.
Qed.

Lemma ravel_unravel shape : forall i, i < prod_list shape -> ravel shape (unravel shape i) = i.
Proof.
  induction shape as [|n ns IH]; intros i Hi; simpl in *; [lia|].
  assert (Hp : prod_list ns <> 0) by (intros E; rewrite E in Hi; lia).
  rewrite IH by (apply Nat.mod_upper_bound; exact Hp).
  rewrite (Nat.div_mod i (prod_list ns)) at 3 by exact Hp. lia.
Qed.

(** Valid index vectors for a shape. *)
Fixpoint valid (shape idx : list nat) : Prop :=
  match shape, idx with
  | [], [] => True
  | n :: ns, i :: is => i < n /\ valid ns is
  | _, _ => False
  end.

Lemma ravel_bound shape : forall idx, valid shape idx -> ravel shape idx < prod_list shape.
Proof.
  induction shape as [|n ns IH]; intros [|i is]; simpl; try tauto; [lia|].
  intros [H1 H2]. specialize (IH is H2). nia.
Qed.

Lemma unravel_ravel shape : forall idx, valid shape idx -> unravel shape (ravel shape idx) = idx.
Proof.
  induction shape as [|n ns IH]; intros [|i is]; simpl; try tauto.
  intros [H1 H2]. pose proof (ravel_bound ns is H2) as Hb.
  rewrite Nat.div_add_l by lia. rewrite Nat.div_small by exact Hb.
  replace ((i * prod_list ns + ravel ns is) mod prod_list ns) with (ravel ns is)
    by (rewrite (Nat.add_comm (i * prod_list ns)), Nat.mod_add by lia; symmetry; apply Nat.mod_small; exact Hb).
  rewrite IH by exact H2. f_equal. lia.
Qed.

Lemma unravel_valid shape : forall i, i < prod_list shape -> valid shape (unravel shape i).
Proof.
  induction shape as [|n ns IH]; intros i Hi; simpl in *; [exact I|].
  assert (Hp : prod_list ns <> 0) by (intros E; rewrite E in Hi; lia).
  split; [apply Nat.div_lt_upper_bound; lia|]. apply IH. apply Nat.mod_upper_bound. exact Hp.
Qed.

Lemma lex_ravel shape : forall a b, valid shape a -> valid shape b -> lex a b -> ravel shape a < ravel shape b.
Proof.
  induction shape as [|n ns IH]; intros a b Ha Hb Hl.
  - destruct a; [inversion Hl|destruct Ha].
  - destruct Hl as [i j is js Hij|i is js Hl]; simpl in *.
    + pose proof (ravel_bound ns is (proj2 Ha)). pose proof (ravel_bound ns js (proj2 Hb)). nia.
    + specialize (IH is js (proj2 Ha) (proj2 Hb) Hl). lia.
Qed.

Lemma pick_valid {A} (grd : list (list A)) : forall idx, valid (map (@length A) grd) idx ->
  exists p, pick grd idx = Some p /\ Forall2 (fun g a => In a g) grd p.
Proof.
  induction grd as [|g gs IH]; intros [|i is]; simpl; try tauto.
  - intros _. exists []. split; [reflexivity|constructor].
  - intros [H1 H2]. destruct (IH is H2) as [p [E F]]. rewrite E.
    destruct (nth_error g i) as [a|] eqn:Ea.
    + exists (a :: p). split; [reflexivity|]. constructor; [|exact F]. eapply nth_error_In. exact Ea.
    + exfalso. apply nth_error_None in Ea. lia.
Qed.

Lemma in_product {A} (grd : list (list A)) : forall p,
  In p (product grd) <-> Forall2 (fun g a => In a g) grd p.
Proof.
  induction grd as [|g gs IH]; intros p; simpl.
  - split; [intros [<-|[]]; constructor|intros H; inversion H; left; reflexivity].
  - rewrite in_flat_map. split.
    + intros [a [Ha Hp]]. apply in_map_iff in Hp. destruct Hp as [q [<- Hq]]. constructor; [exact Ha|].
      apply IH. exact Hq.
    + intros H. inversion H as [|? a ? q Ha Hq]; subst. exists a. split; [exact Ha|].
      apply in_map. apply IH. exact Hq.
Qed.

Section S.
Context {V A : Type}.
Variable lt : V -> V -> bool.
Hypothesis lt_irrefl : forall a, lt a a = false.
Hypothesis lt_trans : forall a b c, lt a b = true -> lt b c = true -> lt a c = true.
Hypothesis lt_ntrans : forall a b c, lt a b = false -> lt b c = false -> lt a c = false.

Lemma better_irrefl fmin a : better lt fmin a a = false.
Proof. destruct fmin; apply lt_irrefl. Qed.
Lemma better_trans fmin a b c : better lt fmin a b = true -> better lt fmin b c = true -> better lt fmin a c = true.
Proof. destruct fmin; simpl; intros; eapply lt_trans; eassumption. Qed.
Lemma better_ntrans fmin a b c : better lt fmin a b = false -> better lt fmin b c = false -> better lt fmin a c = false.
Proof. destruct fmin; simpl; intros; eapply lt_ntrans; eassumption. Qed.

Definition best_of fmin (l : list (option V)) (o : option (nat * V)) : Prop :=
  match o with
  | None => forall i v, nth_error l i <> Some (Some v)
  | Some (i, b) =>
      nth_error l i = Some (Some b) /\
      (forall j v, nth_error l j = Some (Some v) -> better lt fmin v b = false) /\
      (forall j v, j < i -> nth_error l j = Some (Some v) -> better lt fmin b v = true)
  end.

Lemma nth_error_snoc {B} (l : list B) x i : nth_error (l ++ [x]) i =
  if i <? length l then nth_error l i else if i =? length l then Some x else None.
Proof.
  destruct (Nat.ltb_spec i (length l)) as [H|H].
  - apply nth_error_app1. exact H.
  - rewrite nth_error_app2 by exact H. destruct (Nat.eqb_spec i (length l)) as [->|Hne].
    + rewrite Nat.sub_diag. reflexivity.
    + destruct (i - length l) as [|n] eqn:E; [lia|]. simpl. destruct n; reflexivity.
Qed.

Lemma argbest_from_spec fmin l : forall done best,
  best_of fmin done best -> best_of fmin (done ++ l) (argbest_from lt fmin l (length done) best).
Proof.
  induction l as [|o l IH]; intros done best Hb; simpl.
  - rewrite app_nil_r. exact Hb.
  - replace (done ++ o :: l) with ((done ++ [o]) ++ l) by (rewrite <- app_assoc; reflexivity).
    replace (S (length done)) with (length (done ++ [o])) by (rewrite app_length; simpl; lia).
    assert (Hlt : forall i v, nth_error done i = Some v -> i < length done).
    { intros i v H. apply nth_error_Some. congruence. }
    assert (Hkeep : forall i b, nth_error done i = Some b -> nth_error (done ++ [o]) i = Some b).
    { intros i b H. rewrite nth_error_app1; [exact H|eapply Hlt; exact H]. }
    assert (Hcase : forall j w, nth_error (done ++ [o]) j = Some w ->
               nth_error done j = Some w \/ (j = length done /\ o = w)).
    { intros j w H. rewrite nth_error_snoc in H.
      destruct (j <? length done); [left; exact H|]. destruct (Nat.eqb_spec j (length done)); [|discriminate].
      right. inversion H. split; [assumption|reflexivity]. }
    destruct o as [v|]; apply IH.
    + destruct best as [[i b]|]; simpl in Hb.
      * destruct Hb as [H1 [H2 H3]]. destruct (better lt fmin v b) eqn:E; simpl.
        -- split; [rewrite nth_error_snoc, Nat.ltb_irrefl, Nat.eqb_refl; reflexivity|]. split.
           ++ intros j w Hj. destruct (Hcase j _ Hj) as [Hj'|[-> Hw]].
              ** destruct (better lt fmin w v) eqn:E2; [|reflexivity].
                 specialize (H2 j w Hj'). pose proof (better_trans fmin w v b E2 E). congruence.
              ** inversion Hw. subst. apply better_irrefl.
           ++ intros j w Hji Hj. destruct (Hcase j _ Hj) as [Hj'|[-> _]]; [|lia].
              destruct (better lt fmin v w) eqn:E2; [reflexivity|].
              specialize (H2 j w Hj'). pose proof (better_ntrans fmin v w b E2 H2). congruence.
        -- split; [apply Hkeep; exact H1|]. split.
           ++ intros j w Hj. destruct (Hcase j _ Hj) as [Hj'|[-> Hw]]; [eapply H2; exact Hj'|].
              inversion Hw. subst. exact E.
           ++ intros j w Hji Hj. destruct (Hcase j _ Hj) as [Hj'|[-> _]]; [eapply H3; eassumption|].
              specialize (Hlt _ _ H1). lia.
      * simpl. split; [rewrite nth_error_snoc, Nat.ltb_irrefl, Nat.eqb_refl; reflexivity|]. split.
        -- intros j w Hj. destruct (Hcase j _ Hj) as [Hj'|[-> Hw]]; [exfalso; eapply Hb; exact Hj'|].
           inversion Hw. subst. apply better_irrefl.
        -- intros j w Hji Hj. destruct (Hcase j _ Hj) as [Hj'|[-> _]]; [exfalso; eapply Hb; exact Hj'|lia].
    + destruct best as [[i b]|]; simpl in Hb |- *.
      * destruct Hb as [H1 [H2 H3]]. split; [apply Hkeep; exact H1|]. split.
        -- intros j w Hj. destruct (Hcase j _ Hj) as [Hj'|[-> Hw]]; [eapply H2; exact Hj'|discriminate].
        -- intros j w Hji Hj. destruct (Hcase j _ Hj) as [Hj'|[-> Hw]]; [eapply H3; eassumption|discriminate].
      * intros j w Hj. destruct (Hcase j _ Hj) as [Hj'|[-> Hw]]; [eapply Hb; exact Hj'|discriminate].
Qed.

Lemma argbest_spec fmin l : best_of fmin l (argbest_from lt fmin l 0 None).
Proof. apply (argbest_from_spec fmin l [] None). intros i v H. destruct i; discriminate. Qed.

Definition grid_optimum (fn : list A -> option V) (grd : list (list A)) (fmin : bool) (r : @gresult V A) : Prop :=
  exists p v,
    sprm r = Some p /\ sfvl r = Some v /\ fn p = Some v /\
    Forall2 (fun g a => In a g) grd p /\
    valid (map (@length A) grd) (sidx r) /\ pick grd (sidx r) = Some p /\
    nth_error (fvmx r) (ravel (map (@length A) grd) (sidx r)) = Some (Some v) /\
    (forall q w, Forall2 (fun g a => In a g) grd q -> fn q = Some w -> better lt fmin w v = false) /\
    (forall idx q w, valid (map (@length A) grd) idx -> lex idx (sidx r) ->
        pick grd idx = Some q -> fn q = Some w -> better lt fmin v w = true).

Lemma select_spec (fn : list A -> option V) (grd : list (list A)) fmin r :
  select lt fmin grd (map fn (product grd)) = inl r -> grid_optimum fn grd fmin r.
Proof.
  unfold select. destruct (map fn (product grd)) as [|f0 fv] eqn:Ef; [discriminate|]. rewrite <- Ef. clear Ef f0 fv.
  unfold argbest. pose proof (argbest_spec fmin (map fn (product grd))) as Hs.
  destruct (argbest_from lt fmin (map fn (product grd)) 0 None) as [[i b]|]; [|discriminate].
  simpl. intros H. inversion H. subst r. clear H. destruct Hs as [H1 [H2 H3]].
  assert (Hi : i < length (product grd)).
  { rewrite <- (map_length fn). apply nth_error_Some. congruence. }
  assert (Hi' : i < prod_list (map (@length A) grd)) by (rewrite <- product_length; exact Hi).
  rewrite nth_error_map in H1. rewrite (product_nth grd i Hi) in H1.
  destruct (pick_valid grd _ (unravel_valid _ i Hi')) as [p [Hp Fp]].
  rewrite Hp in H1. simpl in H1. inversion H1 as [Hfp].
  exists p, b. simpl. rewrite (ravel_unravel _ i Hi').
  assert (Hnth : nth_error (map fn (product grd)) i = Some (Some b)).
  { rewrite nth_error_map, (product_nth grd i Hi), Hp. simpl. congruence. }
  split; [exact Hp|]. split; [rewrite Hnth; reflexivity|]. split; [exact Hfp|]. split; [exact Fp|].
  split; [apply unravel_valid; exact Hi'|]. split; [exact Hp|]. split; [exact Hnth|]. split.
  - intros q w Fq Hq. apply in_product in Fq. apply In_nth_error in Fq. destruct Fq as [j Hj].
    apply (H2 j). rewrite nth_error_map, Hj. simpl. congruence.
  - intros idx q w Hv Hl Hq Hw.
    pose proof (lex_ravel _ _ _ Hv (unravel_valid _ i Hi') Hl) as Hlt. rewrite (ravel_unravel _ i Hi') in Hlt.
    apply (H3 (ravel (map (@length A) grd) idx)); [exact Hlt|].
    rewrite nth_error_map, product_nth.
    + rewrite (unravel_ravel _ idx Hv), Hq. simpl. congruence.
    + rewrite product_length. apply ravel_bound. exact Hv.
Qed.

Lemma select_errors (fn : list A -> option V) (grd : list (list A)) fmin :
  (select lt fmin grd (map fn (product grd)) = inr GIndexError <-> In [] grd) /\
  (select lt fmin grd (map fn (product grd)) = inr GValueError <->
     ~ In [] grd /\ forall q, Forall2 (fun g a => In a g) grd q -> fn q = None).
Proof.
  assert (Hempty : product grd = [] <-> In [] grd).
  { clear. induction grd as [|g gs IH]; simpl; [split; [discriminate|tauto]|]. split.
    - intros H. destruct g as [|a g]; [left; reflexivity|]. right. apply IH. simpl in H.
      apply app_eq_nil in H. destruct H as [H _]. apply map_eq_nil in H. exact H.
    - intros [->|H]; [reflexivity|]. apply IH in H. rewrite H.
      induction g as [|a g IHg]; [reflexivity|exact IHg]. }
  unfold select. destruct (map fn (product grd)) as [|f0 fv] eqn:Ef.
  - apply map_eq_nil in Ef. split; [tauto|]. split; [discriminate|]. intros [H _]. exfalso. tauto.
  - rewrite <- Ef. unfold argbest. pose proof (argbest_spec fmin (map fn (product grd))) as Hs.
    assert (Hne : ~ In [] grd).
    { intros H. apply Hempty in H. rewrite H in Ef. discriminate. }
    destruct (argbest_from lt fmin (map fn (product grd)) 0 None) as [[i b]|]; simpl.
    + split; [split; [discriminate|tauto]|]. split; [discriminate|]. intros [_ H]. exfalso.
      destruct Hs as [H1 _]. rewrite nth_error_map in H1.
      destruct (nth_error (product grd) i) as [q|] eqn:E; [|discriminate]. simpl in H1. inversion H1.
      rewrite (H q) in H2; [discriminate|]. apply in_product. eapply nth_error_In. exact E.
    + split; [split; [discriminate|tauto]|]. split; [|reflexivity]. intros _. split; [exact Hne|].
      intros q Hq. apply in_product in Hq. apply In_nth_error in Hq. destruct Hq as [j Hj].
      destruct (fn q) as [w|] eqn:Ew; [|reflexivity]. exfalso. apply (Hs j w).
      rewrite nth_error_map, Hj. simpl. congruence.
Qed.
End S.

(** ** MPI partition *)
Definition prefix_len arrlen size r := fold_right Nat.add 0 (map (ranklen arrlen size) (seq 0 r)).

Lemma sum_snoc l x : fold_right Nat.add 0 (l ++ [x]) = fold_right Nat.add 0 l + x.
Proof. induction l as [|y l IH]; simpl; [lia|]. rewrite IH. lia. Qed.

Lemma prefix_len_S arrlen size r : prefix_len arrlen size (S r) = prefix_len arrlen size r + ranklen arrlen size r.
Proof. unfold prefix_len. rewrite seq_S, map_app. simpl. apply sum_snoc. Qed.

Lemma prefix_len_val arrlen size r : r <= size -> size <> 0 ->
  prefix_len arrlen size r = r * (arrlen / size) + Nat.min r (arrlen mod size).
Proof.
  intros Hr Hs. induction r as [|r IH]; [reflexivity|].
  rewrite prefix_len_S, IH by lia. unfold ranklen.
  destruct (Nat.ltb_spec r (arrlen mod size)); nia.
Qed.

Lemma prefix_len_total arrlen size : size <> 0 -> prefix_len arrlen size size = arrlen.
Proof.
  intros Hs. rewrite prefix_len_val by lia.
  pose proof (Nat.mod_upper_bound arrlen size Hs). rewrite Nat.min_r by lia.
  pose proof (Nat.div_mod arrlen size Hs). lia.
Qed.

Lemma rank_limits_val arrlen size r :
  rank_limits arrlen size r = (prefix_len arrlen size r, prefix_len arrlen size (S r)).
Proof.
  unfold rank_limits. change (rank_end arrlen size r) with (prefix_len arrlen size (S r)).
  rewrite prefix_len_S. f_equal. lia.
Qed.

Lemma firstn_slice {B} (l : list B) : forall a b, a <= b -> firstn b l = firstn a l ++ slice a b l.
Proof.
  induction l as [|x l IH]; intros a b H.
  - unfold slice. rewrite skipn_nil. rewrite !firstn_nil. reflexivity.
  - destruct a as [|a].
    + unfold slice. simpl. rewrite Nat.sub_0_r. reflexivity.
    + destruct b as [|b]; [lia|]. simpl. rewrite (IH a b) by lia. reflexivity.
Qed.

Lemma chunks_concat {B} (l : list B) size n : size <> 0 -> n <= size ->
  flat_map (fun r => rank_chunk size r l) (seq 0 n) = firstn (prefix_len (length l) size n) l.
Proof.
  intros Hs. induction n as [|n IH]; intros Hn.
  - reflexivity.
  - rewrite seq_S, flat_map_app, IH by lia. simpl. rewrite app_nil_r. unfold rank_chunk.
    rewrite rank_limits_val. symmetry. apply firstn_slice. rewrite prefix_len_S. lia.
Qed.

Lemma chunks_all {B} (l : list B) size : size <> 0 ->
  flat_map (fun r => rank_chunk size r l) (seq 0 size) = l.
Proof.
  intros Hs. rewrite chunks_concat by lia. rewrite prefix_len_total by exact Hs. apply firstn_all.
Qed.

Lemma flat_map_map {X Y Z} (f : Y -> Z) (g : X -> list Y) l :
  flat_map (fun x => map f (g x)) l = map f (flat_map g l).
Proof. induction l as [|x l IH]; simpl; [reflexivity|]. rewrite map_app, IH. reflexivity. Qed.

Lemma ranklen_zero points size rank : size <> 0 -> rank < size ->
  (ranklen points size rank = 0 <-> points <= rank).
Proof.
  intros Hs Hr. unfold ranklen.
  destruct (lt_dec points size) as [H|H].
  - rewrite Nat.div_small, Nat.mod_small by exact H. destruct (Nat.ltb_spec rank points); lia.
  - assert (1 <= points / size) by (apply Nat.div_le_lower_bound; lia).
    destruct (Nat.ltb_spec rank (points mod size)); lia.
Qed.

(** ** Connection with the specification vocabulary *)
Lemma row_major_ravel shape : forall idx acc, valid shape idx ->
  row_major shape idx acc = acc * prod_list shape + ravel shape idx.
Proof.
  induction shape as [|n ns IH]; intros [|i is] acc; simpl; try tauto; [lia|].
  intros [H1 H2]. rewrite IH by exact H2. nia.
Qed.

Lemma selects_valid {A} (grd : list (list A)) : forall idx p, selects grd idx p -> 
  valid (map (@length A) grd) idx /\ pick grd idx = Some p.
Proof.
  intros idx p H. induction H as [|g gs i is a p Ha H IH]; simpl; [tauto|].
  destruct IH as [IH1 IH2]. rewrite Ha, IH2. split; [split; [apply nth_error_Some; congruence|exact IH1]|reflexivity].
Qed.

Lemma valid_selects {A} (grd : list (list A)) : forall idx p, valid (map (@length A) grd) idx ->
  pick grd idx = Some p -> selects grd idx p.
Proof.
  induction grd as [|g gs IH]; intros [|i is] p; simpl; try tauto.
  - intros _ H. inversion H. constructor.
  - intros [H1 H2]. destruct (nth_error g i) eqn:E1; [|discriminate].
    destruct (pick gs is) eqn:E2; [|discriminate]. intros H. inversion H. subst. constructor; [exact E1|].
    apply IH; assumption.
Qed.

Lemma selects_exists {A} (grd : list (list A)) q : Forall2 (fun g a => In a g) grd q -> exists idx, selects grd idx q.
Proof.
  intros H. induction H as [|g a gs q Ha H [idx IH]]; [exists []; constructor|].
  apply In_nth_error in Ha. destruct Ha as [i Hi]. exists (i :: idx). constructor; assumption.
Qed.

Lemma selects_in {A} (grd : list (list A)) idx q : selects grd idx q -> Forall2 (fun g a => In a g) grd q.
Proof. intros H. induction H; constructor; [eapply nth_error_In; eassumption|assumption]. Qed.

Section S2.
Context {V A : Type}.
Variable lt : V -> V -> bool.
Hypothesis Hswo : strict_weak_order lt.

Lemma grid_search_optimum (fn : list A -> option V) (grd : list (list A)) fmin r :
  grid_search lt fn grd fmin = inl r ->
  optimum (better lt fmin) fn grd (sprm r) (sfvl r) (fvmx r) (sidx r).
Proof.
  destruct Hswo as [Hi [Ht Hn]]. intros H. unfold grid_search in H.
  assert (Htab : fvmx r = map fn (product grd)).
  { unfold select in H. destruct (map fn (product grd)) as [|f0 fv] eqn:E; [discriminate|].
    destruct (argbest lt fmin (f0 :: fv)); inversion H; reflexivity. }
  apply (select_spec lt Hi Ht Hn) in H.
  destruct H as (p & v & H1 & H2 & H3 & H4 & H5 & H6 & H7 & H8 & H9).
  exists p, v. split; [exact H1|]. split; [exact H2|]. split; [apply valid_selects; assumption|].
  split; [exact H3|]. split; [|split].
  - intros idx q Hq. destruct (selects_valid _ _ _ Hq) as [Hv Hp]. rewrite row_major_ravel by exact Hv.
    simpl. rewrite Htab, nth_error_map, product_nth, unravel_ravel, Hp; [reflexivity|exact Hv|].
    rewrite product_length. apply ravel_bound. exact Hv.
  - intros idx q w Hq Hw. eapply H8; [eapply selects_in; exact Hq|exact Hw].
  - intros idx q w Hl Hq Hw. destruct (selects_valid _ _ _ Hq) as [Hv Hp]. eapply H9; eassumption.
Qed.

Lemma grid_search_errors (fn : list A -> option V) (grd : list (list A)) fmin :
  (grid_search lt fn grd fmin = inr GIndexError <-> In [] grd) /\
  (grid_search lt fn grd fmin = inr GValueError <->
     ~ In [] grd /\ forall idx q, selects grd idx q -> fn q = None).
Proof.
  destruct Hswo as [Hi [Ht Hn]]. unfold grid_search.
  destruct (select_errors lt Hi Ht Hn fn grd fmin) as [E1 E2]. split; [exact E1|]. rewrite E2.
  split; intros [H1 H2]; (split; [exact H1|]).
  - intros idx q Hq. apply H2. eapply selects_in. exact Hq.
  - intros q Hq. destruct (selects_exists _ _ Hq) as [idx Hidx]. eapply H2. exact Hidx.
Qed.

Lemma mpi_same (fn : list A -> option V) (grd : list (list A)) fmin size : size <> 0 ->
  mpi_grid_search lt fn grd fmin size = grid_search lt fn grd fmin.
Proof.
  intros Hs. unfold mpi_grid_search, grid_search. rewrite flat_map_map, chunks_all by exact Hs. reflexivity.
Qed.
End S2.

Lemma rank_limits_cover arrlen size i : size <> 0 -> i < arrlen ->
  exists r, r < size /\ (fst (rank_limits arrlen size r) <= i < snd (rank_limits arrlen size r)) /\
    forall r', r' < size -> fst (rank_limits arrlen size r') <= i < snd (rank_limits arrlen size r') -> r' = r.
Proof.
  intros Hs Hi.
  assert (Hmono : forall a b, a <= b -> prefix_len arrlen size a <= prefix_len arrlen size b).
  { intros a b H. induction H as [|b H IH]; [lia|]. rewrite prefix_len_S. lia. }
  assert (Hex : forall n, i < prefix_len arrlen size n -> exists r, r < n /\
            prefix_len arrlen size r <= i < prefix_len arrlen size (S r)).
  { induction n as [|n IH]; intros H; [unfold prefix_len in H; simpl in H; lia|].
    destruct (le_lt_dec (prefix_len arrlen size n) i) as [H'|H'].
    - exists n. split; [lia|]. split; [exact H'|exact H].
    - destruct (IH H') as [r [Hr Hr']]. exists r. split; [lia|exact Hr']. }
  destruct (Hex size) as [r [Hr Hr']]; [rewrite prefix_len_total by exact Hs; exact Hi|].
  exists r. rewrite rank_limits_val. split; [exact Hr|]. split; [exact Hr'|].
  intros r' _. rewrite rank_limits_val. simpl. intros H.
  destruct (Nat.lt_trichotomy r r') as [Hlt|[He|Hlt]]; [|congruence|].
  - pose proof (Hmono (S r) r' Hlt). lia.
  - pose proof (Hmono (S r') r Hlt). lia.
Qed.

Lemma rank_balance arrlen size r r' :
  ranklen arrlen size r <= S (ranklen arrlen size r').
Proof.
  unfold ranklen. destruct (r <? arrlen mod size), (r' <? arrlen mod size); lia.
Qed.

Lemma collectives_scalar points size r r' :
  collectives false points size r = collectives false points size r'.
Proof. reflexivity. Qed.

Lemma collectives_vector points size : size <> 0 -> points <> 0 ->
  (forall r r', r < size -> r' < size -> collectives true points size r = collectives true points size r')
  <-> size <= points.
Proof.
  intros Hs Hp. split.
  - intros H. destruct (le_lt_dec size points) as [Hle|Hlt]; [exact Hle|exfalso].
    specialize (H 0 points ltac:(lia) Hlt). unfold collectives in H. simpl in H.
    pose proof (ranklen_zero points size 0 Hs ltac:(lia)) as E0.
    pose proof (ranklen_zero points size points Hs Hlt) as E1.
    destruct (Nat.eqb_spec (ranklen points size 0) 0); [lia|].
    destruct (Nat.eqb_spec (ranklen points size points) 0); [discriminate|lia].
  - intros Hle r r' Hr Hr'. unfold collectives. simpl.
    pose proof (ranklen_zero points size r Hs Hr). pose proof (ranklen_zero points size r' Hs Hr').
    destruct (Nat.eqb_spec (ranklen points size r) 0); [lia|].
    destruct (Nat.eqb_spec (ranklen points size r') 0); [lia|]. reflexivity.
Qed.
