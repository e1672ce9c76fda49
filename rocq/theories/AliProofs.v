(** A may-alias analysis for the programs of AliModel, its soundness, and an
    executor that produces concrete executions. *)
From Coq Require Import List String Arith Lia Bool.
From Verif Require Import AliModel AliSpec.
Import ListNotations.
Open Scope string_scope.
Open Scope nat_scope.
Open Scope list_scope.

Definition amap := list (attr * attr).

Definition same (a b : attr) : bool := String.eqb a b.
Definition mem (a : attr) (l : list attr) : bool := existsb (same a) l.

Definition haspair (M : amap) (a b : attr) : bool :=
  existsb (fun q => same (fst q) a && same (snd q) b || same (fst q) b && same (snd q) a) M.
Definition may (M : amap) (a b : attr) : bool := same a b || haspair M a b.

Definition drop (a : attr) (M : amap) : amap :=
  filter (fun q => negb (same (fst q) a) && negb (same (snd q) a)) M.

Definition partners (b : attr) (M : amap) : list attr :=
  flat_map (fun q => (if same (fst q) b then [snd q] else []) ++
                     (if same (snd q) b then [fst q] else [])) M.

Definition add (M N : amap) : amap :=
  fold_right (fun q acc => if may acc (fst q) (snd q) then acc else q :: acc) N M.

Definition subset (M N : amap) : bool :=
  forallb (fun q => may N (fst q) (snd q)) M.

Fixpoint lfp (f : amap -> option amap) (n : nat) (M : amap) : option amap :=
  match f M with
  | None => None
  | Some M' => if subset M' M then Some M
               else match n with O => None | S n' => lfp f n' (add M' M) end
  end.

Fixpoint an (P : list attr) (c : cmd) (M : amap) : option amap :=
  match c with
  | Skip => Some M
  | New a => if mem a P then None else Some (drop a M)
  | Bind a b =>
      if mem a P then None
      else if same a b then Some M
      else Some ((a, b) :: map (fun x => (a, x)) (partners b (drop a M)) ++ drop a M)
  | Write a => if existsb (may M a) P then None else Some M
  | Seq c d => match an P c M with None => None | Some M' => an P d M' end
  | Choice c d =>
      match an P c M, an P d M with
      | Some M1, Some M2 => Some (add M1 M2)
      | _, _ => None
      end
  | Loop c => lfp (an P c) 12 M
  end.

Lemma same_eq a b : same a b = true <-> a = b.
Proof. apply String.eqb_eq. Qed.
Lemma same_refl a : same a a = true.
Proof. apply same_eq; reflexivity. Qed.
Lemma same_neq a b : same a b = false <-> a <> b.
Proof. unfold same. rewrite String.eqb_neq. tauto. Qed.

Lemma mem_In a l : mem a l = true <-> In a l.
Proof.
  unfold mem. rewrite existsb_exists. split.
  - intros [x [H1 H2]]. apply same_eq in H2. subst. auto.
  - intros H. exists a. split; auto. apply same_refl.
Qed.

Lemma haspair_spec M a b : haspair M a b = true <-> In (a, b) M \/ In (b, a) M.
Proof.
  unfold haspair. rewrite existsb_exists. split.
  - intros [[x y] [H1 H2]]. cbn in H2. apply orb_true_iff in H2.
    destruct H2 as [H2|H2]; apply andb_true_iff in H2; destruct H2 as [E1 E2];
      apply same_eq in E1, E2; subst; auto.
  - intros [H|H]; [exists (a, b) | exists (b, a)]; split; auto; cbn;
      rewrite !same_refl; cbn; auto using orb_true_r.
Qed.

Lemma may_spec M a b : may M a b = true <-> a = b \/ In (a, b) M \/ In (b, a) M.
Proof.
  unfold may. rewrite orb_true_iff, same_eq, haspair_spec. tauto.
Qed.

Lemma may_sym M a b : may M a b = true -> may M b a = true.
Proof. rewrite !may_spec. intuition. Qed.

Lemma drop_In a M x y : In (x, y) (drop a M) <-> In (x, y) M /\ x <> a /\ y <> a.
Proof.
  unfold drop. rewrite filter_In. cbn. rewrite andb_true_iff, !negb_true_iff, !same_neq. tauto.
Qed.

Lemma may_drop a M x y : x <> a -> y <> a -> may M x y = true -> may (drop a M) x y = true.
Proof. rewrite !may_spec, !drop_In. intuition. Qed.

Lemma partners_In b M x : In x (partners b M) <-> In (b, x) M \/ In (x, b) M.
Proof.
  unfold partners. rewrite in_flat_map. split.
  - intros [[u v] [H1 H2]]. cbn [fst snd] in H2. apply in_app_or in H2. destruct H2 as [H2|H2].
    + destruct (same u b) eqn:E; [|destruct H2]. apply same_eq in E. destruct H2 as [<-|[]].
      subst; auto.
    + destruct (same v b) eqn:E; [|destruct H2]. apply same_eq in E. destruct H2 as [<-|[]].
      subst; auto.
  - intros [H|H]; [exists (b, x) | exists (x, b)]; split; auto; cbn [fst snd]; rewrite same_refl;
      apply in_or_app; cbn; auto.
Qed.

Lemma add_le_r M N x y : may N x y = true -> may (add M N) x y = true.
Proof.
  intros H. induction M as [|q M IH]; cbn; auto. fold (add M N).
  destruct (may (add M N) (fst q) (snd q)); [exact IH|].
  apply may_spec. apply may_spec in IH. cbn. tauto.
Qed.

Lemma add_le_l M N x y : may M x y = true -> may (add M N) x y = true.
Proof.
  induction M as [|[u v] M IH]; intros H.
  - apply may_spec in H. apply may_spec. cbn in *. intuition.
  - apply may_spec in H. cbn in H. cbn. fold (add M N).
    destruct (may (add M N) u v) eqn:E.
    + destruct H as [H|[[H|H]|[H|H]]].
      * subst. apply may_spec; auto.
      * injection H as -> ->. auto.
      * apply IH. apply may_spec; auto.
      * injection H as -> ->. apply may_sym; auto.
      * apply IH. apply may_spec; auto.
    + assert (K : may M x y = true -> may ((u, v) :: add M N) x y = true).
      { intros K. apply IH in K. apply may_spec in K. apply may_spec. cbn. intuition. }
      destruct H as [H|[[H|H]|[H|H]]]; try (apply K, may_spec; tauto);
        apply may_spec; cbn; auto.
Qed.

Lemma subset_le M N x y : subset M N = true -> may M x y = true -> may N x y = true.
Proof.
  unfold subset. rewrite forallb_forall. intros H K. apply may_spec in K.
  destruct K as [->|[K|K]].
  - apply may_spec; auto.
  - apply (H _ K).
  - apply may_sym, (H _ K).
Qed.

Lemma lfp_spec f n M M' :
  lfp f n M = Some M' ->
  (forall x y, may M x y = true -> may M' x y = true) /\
  exists M'', f M' = Some M'' /\ subset M'' M' = true.
Proof.
  revert M. induction n as [|n IH]; intros M H; cbn in H.
  - destruct (f M) as [Mf|] eqn:Ef; [|discriminate].
    destruct (subset Mf M) eqn:Es; [|discriminate]. injection H as <-. split; eauto.
  - destruct (f M) as [Mf|] eqn:Ef; [|discriminate].
    destruct (subset Mf M) eqn:Es.
    + injection H as <-. split; eauto.
    + destruct (IH _ H) as [H1 H2]. split; auto.
      intros x y K. apply H1, add_le_r, K.
Qed.

Section Sound.
  Context {V : Type}.
  Variable P : list attr.
  Variable g : attr -> option loc.    (* where the protected arrays are *)

  Definition look (s : st V) (a : attr) : option loc := if mem a P then g a else env s a.

  Definition inv (M : amap) (s : st V) : Prop :=
    (forall a, In a P -> env s a = None \/ env s a = g a) /\
    (forall a l, look s a = Some l -> l < next s) /\
    (forall a b l, look s a = Some l -> look s b = Some l -> may M a b = true).

  Definition kept (s s' : st V) : Prop :=
    forall p, In p P ->
      env s' p = env s p /\ forall l, g p = Some l -> heap s' l = heap s l.

  Lemma kept_refl s : kept s s.
  Proof. intros p _. auto. Qed.
  Lemma kept_trans s t u : kept s t -> kept t u -> kept s u.
  Proof.
    intros H K p Hp. destruct (H p Hp) as [H1 H2], (K p Hp) as [K1 K2].
    split; [congruence|]. intros l E. rewrite K2, H2; auto.
  Qed.

  Lemma inv_mono M M' s :
    (forall x y, may M x y = true -> may M' x y = true) -> inv M s -> inv M' s.
  Proof. intros H (A & B & C). split; [|split]; eauto. Qed.

  Lemma set_env_same e a x : set_env e a x a = x.
  Proof. unfold set_env. rewrite String.eqb_refl. auto. Qed.
  Lemma set_env_other e a b x : a <> b -> set_env e a x b = e b.
  Proof. intros H. unfold set_env. apply String.eqb_neq in H. rewrite H. auto. Qed.

  Lemma notP a : mem a P = false -> forall p, In p P -> a <> p.
  Proof. intros H p Hp ->. apply mem_In in Hp. congruence. Qed.

  Lemma sound c : forall M M' s s',
    an P c M = Some M' -> inv M s -> run c s s' -> inv M' s' /\ kept s s'.
  Proof.
    induction c as [|a|a b|a|c1 IH1 c2 IH2|c1 IH1 c2 IH2|c IH]; intros M M' s s' HA HI HR.
    - inversion HR; subst. injection HA as <-. auto using kept_refl.
    - cbn in HA. destruct (mem a P) eqn:Em; [discriminate|]. injection HA as <-.
      inversion HR; subst. destruct HI as (A & B & C).
      assert (L : forall x, look (mkst (set_env (env s) a (Some (next s)))
                     (set_heap (heap s) (next s) v) (S (next s))) x =
                   if same a x then Some (next s) else look s x).
      { intros x. unfold look. cbn. destruct (same a x) eqn:E.
        - apply same_eq in E. subst x. rewrite Em, set_env_same. auto.
        - destruct (mem x P); auto. apply same_neq in E. rewrite set_env_other; auto. }
      split; [split; [|split]|].
      + intros x Hx. cbn. rewrite set_env_other by (apply notP; auto). auto.
      + intros x l. rewrite L. cbn. destruct (same a x).
        * intros E. injection E as <-. lia.
        * intros E. apply B in E. lia.
      + intros x y l. rewrite !L. destruct (same a x) eqn:Ex, (same a y) eqn:Ey.
        * intros _ _. apply same_eq in Ex, Ey. subst. apply may_spec. auto.
        * intros E1 E2. injection E1 as <-. apply B in E2. lia.
        * intros E1 E2. injection E2 as <-. apply B in E1. lia.
        * intros E1 E2. apply same_neq in Ex, Ey. apply may_drop; eauto.
      + intros p Hp. cbn. rewrite set_env_other by (apply notP; auto). split; auto.
        intros l El. assert (l < next s).
        { apply (B p). unfold look. apply mem_In in Hp. rewrite Hp. auto. }
        unfold set_heap. destruct (Nat.eqb_spec (next s) l); auto. lia.
    - cbn in HA. destruct (mem a P) eqn:Em; [discriminate|].
      inversion HR; subst. destruct HI as (A & B & C).
      assert (L : forall x, look (mkst (set_env (env s) a (env s b)) (heap s) (next s)) x =
                   if same a x then env s b else look s x).
      { intros x. unfold look. cbn. destruct (same a x) eqn:E.
        - apply same_eq in E. subst x. rewrite Em, set_env_same. auto.
        - destruct (mem x P); auto. apply same_neq in E. rewrite set_env_other; auto. }
      assert (Lb : forall l, env s b = Some l -> look s b = Some l).
      { intros l E. unfold look. destruct (mem b P) eqn:Eb; auto.
        apply mem_In in Eb. destruct (A b Eb); congruence. }
      assert (K : kept s (mkst (set_env (env s) a (env s b)) (heap s) (next s))).
      { intros p Hp. cbn. rewrite set_env_other by (apply notP; auto). auto. }
      split; [|exact K]. split; [|split].
      + intros x Hx. destruct (K x Hx) as [-> _]. auto.
      + intros x l. rewrite L. cbn. destruct (same a x); eauto.
      + intros x y l. rewrite !L. destruct (same a b) eqn:Eab.
        { injection HA as <-. apply same_eq in Eab. subst b.
          destruct (same a x) eqn:Ex, (same a y) eqn:Ey; try (apply same_eq in Ex; subst x);
            try (apply same_eq in Ey; subst y); intros E1 E2;
            try apply Lb in E1; try apply Lb in E2; eauto. }
        injection HA as <-. apply same_neq in Eab.
        assert (Kb : forall z, same a z = false -> look s z = Some l -> env s b = Some l ->
          may ((a, b) :: map (fun x => (a, x)) (partners b (drop a M)) ++ drop a M) a z = true).
        { intros z Ez E1 E2. apply same_neq in Ez. apply Lb in E2.
          pose proof (C b z l E2 E1) as H. apply may_spec in H. apply may_spec.
          destruct H as [H|H].
          - subst z. right. left. left. auto.
          - right. left. right. apply in_or_app. left. apply in_map_iff. exists z.
            split; auto. apply partners_In. rewrite !drop_In. intuition. }
        destruct (same a x) eqn:Ex, (same a y) eqn:Ey; intros E1 E2.
        * apply same_eq in Ex, Ey. subst. apply may_spec. auto.
        * apply same_eq in Ex. subst x. eauto.
        * apply same_eq in Ey. subst y. apply may_sym. eauto.
        * apply same_neq in Ex, Ey.
          assert (H : may (drop a M) x y = true) by (apply may_drop; eauto).
          apply may_spec in H. apply may_spec. destruct H as [H|[H|H]]; auto.
          -- right. left. right. apply in_or_app. auto.
          -- right. right. right. apply in_or_app. auto.
    - cbn in HA. destruct (existsb (may M a) P) eqn:Em; [discriminate|]. injection HA as <-.
      inversion HR; subst. destruct HI as (A & B & C).
      split; [split; [|split]; cbn; auto|].
      intros p Hp. cbn. split; auto. intros k Ek.
      unfold set_heap. destruct (Nat.eqb_spec l k); auto. subst k. exfalso.
      assert (T : existsb (may M a) P = true).
      { apply existsb_exists. exists p. split; auto. apply (C a p l).
        - unfold look. destruct (mem a P) eqn:Ea; auto. apply mem_In in Ea.
          destruct (A a Ea); congruence.
        - unfold look. apply mem_In in Hp. rewrite Hp. auto. }
      congruence.
    - cbn in HA. destruct (an P c1 M) as [M1|] eqn:E1; [|discriminate].
      inversion HR; subst.
      match goal with H1 : run c1 _ _, H2 : run c2 _ _ |- _ =>
        destruct (IH1 _ _ _ _ E1 HI H1) as [I1 K1];
        destruct (IH2 _ _ _ _ HA I1 H2) as [I2 K2] end.
      split; auto. eapply kept_trans; eauto.
    - cbn in HA. destruct (an P c1 M) as [M1|] eqn:E1; [|discriminate].
      destruct (an P c2 M) as [M2|] eqn:E2; [|discriminate]. injection HA as <-.
      inversion HR; subst.
      + match goal with H1 : run c1 _ _ |- _ => destruct (IH1 _ _ _ _ E1 HI H1) as [I K] end. split; auto.
        eapply inv_mono; [|exact I]. intros; apply add_le_l; auto.
      + match goal with H1 : run c2 _ _ |- _ => destruct (IH2 _ _ _ _ E2 HI H1) as [I K] end. split; auto.
        eapply inv_mono; [|exact I]. intros; apply add_le_r; auto.
    - change (lfp (an P c) 12 M = Some M') in HA.
      destruct (lfp_spec _ _ _ _ HA) as [H1 (M2 & H2 & H3)].
      apply (inv_mono _ M') in HI; auto. clear HA H1 M.
      remember (Loop c) as lc eqn:El.
      revert HI. induction HR; try discriminate; intros HI.
      + auto using kept_refl.
      + injection El as ->. destruct (IH _ _ _ _ H2 HI HR1) as [I1 K1].
        apply (inv_mono _ M') in I1; [|intros; eapply subset_le; eauto].
        destruct (IHHR2 eq_refl I1) as [I2 K2]. split; auto. eapply kept_trans; eauto.
  Qed.
End Sound.

(* ---------------------------------------------------------------------- *)
(** The three checks *)

Definition pairs (l : list attr) : amap := flat_map (fun a => map (fun b => (a, b)) l) l.

Fixpoint times (k : nat) (c : cmd) : cmd :=
  match k with O => Skip | S k' => c ;; times k' c end.

Definition ok (o : option amap) : bool := match o with Some _ => true | None => false end.

Definition check_args (p : prog) : bool :=
  ok (an (args p) (init p ;; Loop (body p)) (pairs (args p))).

Definition ghost : attr := "?".

Definition check_result (k : nat) (p : prog) (r : attr) : bool :=
  match an [] (init p ;; times k (body p) ;; Loop (body p)) (pairs (args p)) with
  | None => false
  | Some M => negb (same r ghost) &&
              match an [] (Bind ghost r) (drop ghost M) with
              | None => false
              | Some M' => ok (an [ghost] (Loop (body p)) M')
              end
  end.

Definition check_prev (p : prog) (a : attr) : bool :=
  match an [] (init p ;; Loop (body p) ;; pre p) (pairs (args p)) with
  | None => false
  | Some M => ok (an [a] (post p) M)
  end.

(* the program never binds the ghost name *)
Fixpoint binds (a : attr) (c : cmd) : bool :=
  match c with
  | Skip => false
  | New b => same a b
  | Bind b _ => same a b
  | Write _ => false
  | Seq c d => binds a c || binds a d
  | Choice c d => binds a c || binds a d
  | Loop c => binds a c
  end.

Lemma unbound {V} a c : binds a c = false -> forall s s' : st V, run c s s' -> env s' a = env s a.
Proof.
  intros Hb s s' HR. induction HR; cbn in Hb; auto.
  - cbn. apply same_neq in Hb. rewrite set_env_other; auto.
  - cbn. apply same_neq in Hb. rewrite set_env_other; auto.
  - apply orb_false_iff in Hb. destruct Hb. rewrite IHHR2, IHHR1; auto.
  - apply orb_false_iff in Hb. destruct Hb. auto.
  - apply orb_false_iff in Hb. destruct Hb. auto.
  - rewrite IHHR2, IHHR1; auto.
Qed.

Section Checks.
  Context {V : Type}.
  Implicit Types (s t u : st V) (p : prog).

  Lemma iters_loop p n s t : iters V p n s t -> run (Loop (body p)) s t.
  Proof. induction 1; [apply run_stop | eapply run_again; eauto]. Qed.

  Lemma iters_times p k n s t :
    k <= n -> iters V p n s t -> run (times k (body p) ;; Loop (body p)) s t.
  Proof.
    intros Hk H. revert k Hk. induction H; intros k Hk.
    - assert (k = 0) by lia. subst. eapply run_seq; [apply run_skip | apply run_stop].
    - destruct k as [|k].
      + eapply run_seq; [apply run_skip|]. eapply run_again; eauto.
        eapply iters_loop; eauto.
      + specialize (IHiters k ltac:(lia)). inversion IHiters; subst.
        eapply run_seq; [|eauto]. eapply run_seq; eauto.
  Qed.

  Lemma pairs_In l a b : In a l -> In b l -> In (a, b) (pairs l).
  Proof.
    intros Ha Hb. unfold pairs. apply in_flat_map. exists a. split; auto.
    apply in_map_iff. exists b. auto.
  Qed.

  Lemma start_inv p s : caller_state V p s -> inv [] (fun _ => None) (pairs (args p)) s.
  Proof.
    intros H. split; [intros a []|]. split.
    - intros a l E. cbn in E. apply H in E. tauto.
    - intros a b l E1 E2. cbn in E1, E2. apply may_spec. right. left.
      apply pairs_In; [apply (H a l E1) | apply (H b l E2)].
  Qed.

  Lemma args_sound p : check_args p = true -> keeps_args V p.
  Proof.
    unfold check_args, keeps_args. intros Hc n s0 s a l [Hs (s1 & H1 & H2)] Ha El.
    destruct (an (args p) (init p ;; Loop (body p)) (pairs (args p))) as [M'|] eqn:E;
      [|discriminate].
    assert (HI : inv (args p) (env s0) (pairs (args p)) s0).
    { assert (L : forall x l', look (args p) (env s0) s0 x = Some l' -> env s0 x = Some l').
      { intros x l'. unfold look. destruct (mem x (args p)); auto. }
      split; [auto|]. split.
      - intros x l' Hx. apply L in Hx. apply (Hs x l' Hx).
      - intros x y l' Hx Hy. apply L in Hx, Hy. apply may_spec. right. left.
        apply pairs_In; [apply (Hs x l' Hx) | apply (Hs y l' Hy)]. }
    destruct (sound _ _ _ _ _ _ _ E HI (run_seq _ _ _ _ _ H1 (iters_loop _ _ _ _ H2)))
      as [_ K].
    apply (K a Ha). auto.
  Qed.

  Lemma result_sound k p :
    binds ghost (init p ;; body p) = false -> mem ghost (args p) = false ->
    forallb (check_result k p) (results p) = true -> keeps_results_from V k p.
  Proof.
    intros Hg Hga Hc n m s0 s s' r l Hk [Hs (s1 & H1 & H2)] Hr El Hm.
    rewrite forallb_forall in Hc. specialize (Hc r Hr). unfold check_result in Hc.
    destruct (an [] (init p ;; times k (body p) ;; Loop (body p)) (pairs (args p)))
      as [M|] eqn:E; [|discriminate].
    apply andb_true_iff in Hc. destruct Hc as [Hrg Hc].
    apply negb_true_iff, same_neq in Hrg.
    destruct (an [] (Bind ghost r) (drop ghost M)) as [M'|] eqn:Eb; [|discriminate].
    destruct (an [ghost] (Loop (body p)) M') as [M2|] eqn:E2; [|discriminate].
    assert (HR : run (init p ;; times k (body p) ;; Loop (body p)) s0 s).
    { eapply run_seq; eauto. eapply iters_times; eauto. }
    destruct (sound [] _ _ _ _ _ _ E (start_inv _ _ Hs) HR) as [(_ & B & C) _].
    cbn in B, C.
    assert (Hgs : env s ghost = None).
    { cbn in Hg. apply orb_false_iff in Hg. destruct Hg as [G1 G2].
      rewrite (unbound ghost (Loop (body p)) G2 _ _ (iters_loop _ _ _ _ H2)).
      rewrite (unbound ghost (init p) G1 _ _ H1).
      destruct (env s0 ghost) as [l'|] eqn:Eg; auto.
      apply Hs in Eg. destruct Eg as [Eg _]. apply mem_In in Eg. congruence. }
    cbn [an] in Eb. change (mem ghost []) with false in Eb. cbv iota in Eb.
    replace (same ghost r) with false in Eb
      by (symmetry; apply same_neq; congruence).
    injection Eb as <-.
    assert (HI : inv [ghost] (fun _ => Some l)
      ((ghost, r) :: map (fun x => (ghost, x)) (partners r (drop ghost (drop ghost M))) ++
       drop ghost (drop ghost M)) s).
    { assert (Lg : forall x, look [ghost] (fun _ => Some l) s x =
                     if same x ghost then Some l else env s x).
      { intros x. unfold look, mem. cbn [existsb]. rewrite orb_false_r. reflexivity. }
      split; [|split].
      - intros x [<-|[]]. auto.
      - intros x l'. rewrite Lg. destruct (same x ghost); [|apply B].
        intros Q. injection Q as <-. eapply B; eauto.
      - assert (Kb : forall z, same z ghost = false -> env s z = Some l ->
          may ((ghost, r) :: map (fun x => (ghost, x))
                (partners r (drop ghost (drop ghost M))) ++ drop ghost (drop ghost M))
              ghost z = true).
        { intros z Ez Q. apply same_neq in Ez. pose proof (C r z l El Q) as H.
          apply may_spec in H. apply may_spec. destruct H as [H|H].
          - subst z. right. left. left. auto.
          - right. left. right. apply in_or_app. left. apply in_map_iff. exists z.
            split; auto. apply partners_In. rewrite !drop_In. intuition. }
        intros x y l'. rewrite !Lg.
        destruct (same x ghost) eqn:Ex, (same y ghost) eqn:Ey; intros Q1 Q2.
        + apply same_eq in Ex, Ey. subst. apply may_spec. auto.
        + apply same_eq in Ex. subst x. injection Q1 as <-. auto.
        + apply same_eq in Ey. subst y. injection Q2 as <-. apply may_sym. auto.
        + apply same_neq in Ex, Ey.
          assert (H : may (drop ghost (drop ghost M)) x y = true)
            by (apply may_drop; auto; apply may_drop; eauto).
          apply may_spec in H. apply may_spec. destruct H as [H|[H|H]]; auto.
          * right. left. right. apply in_or_app. auto.
          * right. right. right. apply in_or_app. auto. }
    destruct (sound _ _ _ _ _ _ _ E2 HI (iters_loop _ _ _ _ Hm)) as [_ K].
    apply (K ghost); cbn; auto.
  Qed.

  Lemma prev_sound p : forallb (check_prev p) (prevs p) = true -> keeps_prevs V p.
  Proof.
    intros Hc n s0 s t u a l [Hs (s1 & H1 & H2)] Hpre Ha El Hpost.
    rewrite forallb_forall in Hc. specialize (Hc a Ha). unfold check_prev in Hc.
    destruct (an [] (init p ;; Loop (body p) ;; pre p) (pairs (args p))) as [M|] eqn:E;
      [|discriminate].
    destruct (an [a] (post p) M) as [M'|] eqn:E2; [|discriminate].
    assert (HR : run (init p ;; Loop (body p) ;; pre p) s0 t).
    { eapply run_seq; eauto. eapply run_seq; eauto. eapply iters_loop; eauto. }
    destruct (sound [] _ _ _ _ _ _ E (start_inv _ _ Hs) HR) as [(_ & B & C) _].
    cbn in B, C.
    assert (HI : inv [a] (env t) M t).
    { assert (L : forall x, look [a] (env t) t x = env t x).
      { intros x. unfold look. destruct (mem x [a]); auto. }
      split; [auto|]. split.
      - intros x l'. rewrite L. apply B.
      - intros x y l'. rewrite !L. apply C. }
    destruct (sound _ _ _ _ _ _ _ E2 HI Hpost) as [_ K].
    destruct (K a (or_introl eq_refl)) as [K1 K2]. split; [congruence|]. auto.
  Qed.

  (** Splitting an iteration elsewhere. *)
  Lemma seq_assoc (a b c : cmd) : same_runs V ((a ;; b) ;; c) (a ;; b ;; c).
  Proof.
    intros s t. split; intros H.
    - inversion H as [| | | |? ? ? m ? H1 H2| | | |]; subst. inversion H1; subst.
      econstructor; [eassumption|]. econstructor; eassumption.
    - inversion H as [| | | |? ? ? m ? H1 H2| | | |]; subst. inversion H2; subst.
      econstructor; [|eassumption]. econstructor; eassumption.
  Qed.
  Lemma seq_cong (a b a' b' : cmd) : same_runs V a a' -> same_runs V b b' -> same_runs V (a ;; b) (a' ;; b').
  Proof.
    intros Ha Hb s t. split; intros H; inversion H as [| | | |? ? ? m ? H1 H2| | | |]; subst;
      (econstructor; [apply Ha; eassumption|apply Hb; eassumption]).
  Qed.
  (* right nested form of c ;; k *)
  Fixpoint rnest (c k : cmd) : cmd :=
    match c with
    | Seq a b => rnest a (rnest b k)
    | _ => c ;; k
    end.
  Lemma rnest_runs c : forall k, same_runs V (rnest c k) (c ;; k).
  Proof.
    assert (R : forall c, same_runs V c c) by (intros ? ? ?; reflexivity).
    induction c; intros k s t; cbn [rnest]; try reflexivity.
    etransitivity; [apply IHc1|]. etransitivity; [apply (seq_cong c1 (rnest c2 k) c1 (c2 ;; k)); [apply R|apply IHc2]|].
    symmetry. apply seq_assoc.
  Qed.
  Lemma rnest_same c d : rnest c Skip = rnest d Skip -> same_runs V c d.
  Proof.
    assert (S : forall c, same_runs V (c ;; Skip) c).
    { intros e s t. split; intros H.
      - inversion H as [| | | |? ? ? m ? H1 H2| | | |]; subst. inversion H2; subst. exact H1.
      - econstructor; [exact H|constructor]. }
    intros E s t. etransitivity; [symmetry; apply S|]. etransitivity; [symmetry; apply rnest_runs|].
    rewrite E. etransitivity; [apply rnest_runs|]. apply S.
  Qed.
  Lemma iters_same p q : same_runs V (body p) (body q) -> forall n s t, iters V p n s t -> iters V q n s t.
  Proof.
    intros E n s t H. induction H as [s|n s t u H1 H2 IH]; [constructor|].
    econstructor; [apply E; exact H1|exact IH].
  Qed.
  Definition shift (p : prog) (c1 c2 : cmd) (xs : list attr) : prog :=
    mkprog (args p) (init p) (pre p ;; c1) c2 xs [].
  Lemma midway_sound p c1 c2 xs : rnest (post p) Skip = rnest (c1 ;; c2) Skip ->
    forallb (check_prev (shift p c1 c2 xs)) xs = true -> keeps_midway V p c1 c2 xs.
  Proof.
    intros E H. pose proof (rnest_same _ _ E) as P. split; [exact P|].
    intros n s0 s t u a l [R1 [s1 [R2 R3]]] H1 Ha He H2.
    apply (prev_sound (shift p c1 c2 xs) H n s0 s t u a l); try assumption.
    split; [exact R1|]. exists s1. split; [exact R2|]. revert R3. apply iters_same.
    unfold body, shift. cbn [pre post]. intros x y.
    etransitivity; [|symmetry; apply seq_assoc]. apply seq_cong; [intros ? ?; reflexivity|exact P].
  Qed.
End Checks.

(* ---------------------------------------------------------------------- *)
(** Executions exist: attributes that are certainly set *)

Fixpoint must (c : cmd) (B : list attr) : option (list attr) :=
  match c with
  | Skip => Some B
  | New a => Some (a :: B)
  | Bind a b => if mem b B then Some (a :: B) else None
  | Write a => if mem a B then Some B else None
  | Seq c d => match must c B with None => None | Some B' => must d B' end
  | Choice c d => must c B
  | Loop c => match must c B with None => None | Some _ => Some B end
  end.

Definition bound {V} (B : list attr) (s : st V) : Prop :=
  forall a, In a B -> exists l, env s a = Some l.

Lemma must_sound {V} (v : V) c : forall B B' (s : st V),
  must c B = Some B' -> bound B s -> exists s', run c s s' /\ bound B' s'.
Proof.
  induction c as [|a|a b|a|c1 IH1 c2 IH2|c1 IH1 c2 IH2|c IH]; intros B B' s HM HB; cbn in HM.
  - injection HM as <-. exists s. split; auto. constructor.
  - injection HM as <-. eexists. split; [apply (run_new a s v)|].
    intros x [<-|Hx]; cbn.
    + exists (next s). apply set_env_same.
    + destruct (string_dec a x) as [->|Hne].
      * exists (next s). apply set_env_same.
      * rewrite set_env_other; auto.
  - destruct (mem b B) eqn:Eb; [|discriminate]. injection HM as <-. apply mem_In in Eb.
    eexists. split; [apply run_bind|]. destruct (HB b Eb) as [l El].
    intros x [<-|Hx]; cbn.
    + exists l. rewrite set_env_same. auto.
    + destruct (string_dec a x) as [->|Hne].
      * exists l. rewrite set_env_same. auto.
      * rewrite set_env_other; auto.
  - destruct (mem a B) eqn:Ea; [|discriminate]. injection HM as <-. apply mem_In in Ea.
    destruct (HB a Ea) as [l El].
    eexists. split; [apply (run_write a s l v El)|]. intros x Hx. cbn. auto.
  - destruct (must c1 B) as [B1|] eqn:E1; [|discriminate].
    destruct (IH1 _ _ _ E1 HB) as [s1 [R1 K1]]. destruct (IH2 _ _ _ HM K1) as [s2 [R2 K2]].
    exists s2. split; auto. eapply run_seq; eauto.
  - destruct (IH1 _ _ _ HM HB) as [s1 [R1 K1]]. exists s1. split; auto. apply run_left; auto.
  - destruct (must c B) as [B1|] eqn:E1; [|discriminate]. injection HM as <-.
    exists s. split; auto. apply run_stop.
Qed.

Definition sub (A B : list attr) : bool := forallb (fun a => mem a B) A.

Definition check_runs (p : prog) : bool :=
  match must (init p) (args p) with
  | None => false
  | Some B => match must (body p) B with
              | None => false
              | Some B' => sub B B' && sub (results p) B'
              end
  end.

Lemma must_mono c : forall B B' C, must c B = Some B' ->
  (forall a, In a B -> In a C) ->
  exists C', must c C = Some C' /\ forall a, In a B' -> In a C'.
Proof.
  induction c as [|a|a b|a|c1 IH1 c2 IH2|c1 IH1 c2 IH2|c IH]; intros B B' C HM HC; cbn in *.
  - injection HM as <-. eauto.
  - injection HM as <-. eexists. split; eauto. intros x [->|Hx]; cbn; auto.
  - destruct (mem b B) eqn:E; [|discriminate]. injection HM as <-.
    apply mem_In in E. apply HC, mem_In in E. rewrite E. eexists. split; eauto.
    intros x [->|Hx]; cbn; auto.
  - destruct (mem a B) eqn:E; [|discriminate]. injection HM as <-.
    apply mem_In in E. apply HC, mem_In in E. rewrite E. eauto.
  - destruct (must c1 B) as [B1|] eqn:E1; [|discriminate].
    destruct (IH1 _ _ _ E1 HC) as [C1 [-> H1]]. eauto.
  - eauto.
  - destruct (must c B) as [B1|] eqn:E1; [|discriminate]. injection HM as <-.
    destruct (IH _ _ _ E1 HC) as [C1 [-> H1]]. eauto.
Qed.

Lemma runs_sound {V} (v : V) p : check_runs p = true ->
  forall s0, caller_state V p s0 -> bound (args p) s0 ->
  forall n, exists s, reached V p (S n) s0 s /\ bound (results p) s.
Proof.
  unfold check_runs. intros Hc s0 Hs Hb n.
  destruct (must (init p) (args p)) as [B|] eqn:E1; [|discriminate].
  destruct (must (body p) B) as [B'|] eqn:E2; [|discriminate].
  apply andb_true_iff in Hc. destruct Hc as [C1 C2]. unfold sub in C1, C2.
  rewrite forallb_forall in C1, C2.
  destruct (must_sound v _ _ _ _ E1 Hb) as [s1 [R1 K1]].
  assert (H : forall m s, bound B s -> exists t : st V, iters V p (S m) s t /\ bound B' t).
  { induction m as [|m IH]; intros s Ks.
    - destruct (must_sound v _ _ _ _ E2 Ks) as [t [R K]]. exists t. split; auto.
      eapply iters_S; eauto. constructor.
    - destruct (must_sound v _ _ _ _ E2 Ks) as [t [R K]].
      assert (Kt : bound B t) by (intros a Ha; apply K, mem_In, C1, Ha).
      destruct (IH t Kt) as [u [R' K']]. exists u. split; auto. eapply iters_S; eauto. }
  destruct (H n s1 K1) as [s [R K]]. exists s. split.
  - split; auto. exists s1. auto.
  - intros a Ha. apply K, mem_In, C2, Ha.
Qed.

(* ---------------------------------------------------------------------- *)
(** Attributes that are set after every execution *)

Definition inter (A B : list attr) : list attr := filter (fun a => mem a B) A.

Fixpoint always (c : cmd) (B : list attr) : option (list attr) :=
  match c with
  | Skip => Some B
  | New a => Some (a :: B)
  | Bind a b => if mem b B then Some (a :: B)
                else Some (filter (fun x => negb (same a x)) B)
  | Write a => Some B
  | Seq c d => match always c B with None => None | Some B' => always d B' end
  | Choice c d => match always c B, always d B with
                  | Some B1, Some B2 => Some (inter B1 B2)
                  | _, _ => None
                  end
  | Loop c => match always c B with
              | None => None
              | Some B' => if sub B B' then Some B else None
              end
  end.

Lemma always_sound {V} c : forall B B' (s s' : st V),
  always c B = Some B' -> bound B s -> run c s s' -> bound B' s'.
Proof.
  induction c as [|a|a b|a|c1 IH1 c2 IH2|c1 IH1 c2 IH2|c IH]; intros B B' s s' HM HB HR;
    cbn [always] in HM.
  - injection HM as <-. inversion HR; subst. auto.
  - injection HM as <-. inversion HR; subst. intros x Hx. cbn.
    destruct (string_dec a x) as [->|Hne].
    + exists (next s). apply set_env_same.
    + rewrite set_env_other; auto. destruct Hx; [congruence|auto].
  - inversion HR; subst. destruct (mem b B) eqn:Eb; injection HM as <-; intros x Hx; cbn.
    + apply mem_In in Eb. destruct (HB b Eb) as [l El].
      destruct (string_dec a x) as [->|Hne].
      * exists l. rewrite set_env_same. auto.
      * rewrite set_env_other; auto. destruct Hx; [congruence|auto].
    + apply filter_In in Hx. destruct Hx as [Hx Hn]. apply negb_true_iff, same_neq in Hn.
      rewrite set_env_other; auto.
  - injection HM as <-. inversion HR; subst. auto.
  - destruct (always c1 B) as [B1|] eqn:E1; [|discriminate]. inversion HR; subst.
    match goal with H1 : run c1 _ _, H2 : run c2 _ _ |- _ =>
      exact (IH2 _ _ _ _ HM (IH1 _ _ _ _ E1 HB H1) H2) end.
  - destruct (always c1 B) as [B1|] eqn:E1; [|discriminate].
    destruct (always c2 B) as [B2|] eqn:E2; [|discriminate]. injection HM as <-.
    intros x Hx. apply filter_In in Hx. destruct Hx as [Hx Hm]. apply mem_In in Hm.
    inversion HR; subst.
    + match goal with H1 : run c1 _ _ |- _ => exact (IH1 _ _ _ _ E1 HB H1 x Hx) end.
    + match goal with H1 : run c2 _ _ |- _ => exact (IH2 _ _ _ _ E2 HB H1 x Hm) end.
  - destruct (always c B) as [B1|] eqn:E1; [|discriminate].
    destruct (sub B B1) eqn:Es; [|discriminate]. injection HM as <-.
    unfold sub in Es. rewrite forallb_forall in Es.
    remember (Loop c) as lc eqn:El. revert HB. induction HR; try discriminate; intros HB; auto.
    injection El as ->. apply IHHR2; auto.
    intros x Hx. apply (IH _ _ _ _ E1 HB HR1), mem_In, Es, Hx.
Qed.

(** In the execution of [must_sound] every content written is v; if the program
    writes r before binding it to something else, the array r was bound to ends up
    with content v. *)
Fixpoint hits (r : attr) (c : cmd) : bool :=
  match c with
  | Write a => same a r
  | Seq c d => hits r c || negb (binds r c) && hits r d
  | Choice c d => hits r c
  | _ => false
  end.

Lemma must_hit {V} (v : V) r c : forall B B' (s : st V),
  must c B = Some B' -> bound B s -> (forall a l, env s a = Some l -> l < next s) ->
  exists s', run c s s' /\ bound B' s' /\
    (forall a l, env s' a = Some l -> l < next s') /\ next s <= next s' /\
    (forall l, l < next s -> heap s' l = heap s l \/ heap s' l = v) /\
    (hits r c = true -> forall l, env s r = Some l -> heap s' l = v).
Proof.
  induction c as [|a|a b|a|c1 IH1 c2 IH2|c1 IH1 c2 IH2|c IH]; intros B B' s HM HB HW;
    cbn [must] in HM.
  - injection HM as <-. exists s. repeat split; auto; try constructor. discriminate.
  - injection HM as <-. eexists. split; [apply (run_new a s v)|].
    split; [|split; [|split; [|split]]]; cbn.
    + intros x Hx. cbn. destruct (string_dec a x) as [->|Hne].
      * exists (next s). apply set_env_same.
      * rewrite set_env_other; auto. destruct Hx; [congruence|auto].
    + intros x l. destruct (string_dec a x) as [->|Hne].
      * rewrite set_env_same. intros E. injection E as <-. lia.
      * rewrite set_env_other by auto. intros E. apply HW in E. lia.
    + lia.
    + intros l _. unfold set_heap. destruct (Nat.eqb (next s) l); auto.
    + discriminate.
  - destruct (mem b B) eqn:Eb; [|discriminate]. injection HM as <-. apply mem_In in Eb.
    eexists. split; [apply run_bind|]. destruct (HB b Eb) as [l El].
    split; [|split; [|split; [|split]]]; cbn; auto; try discriminate.
    + intros x Hx. cbn. destruct (string_dec a x) as [->|Hne].
      * exists l. rewrite set_env_same. auto.
      * rewrite set_env_other; auto. destruct Hx; [congruence|auto].
    + intros x k. destruct (string_dec a x) as [->|Hne].
      * rewrite set_env_same. eauto.
      * rewrite set_env_other by auto. eauto.
  - destruct (mem a B) eqn:Ea; [|discriminate]. injection HM as <-. apply mem_In in Ea.
    destruct (HB a Ea) as [l El].
    eexists. split; [apply (run_write a s l v El)|].
    split; [|split; [|split; [|split]]]; cbn [env heap next]; auto.
    + intros k _. unfold set_heap. destruct (Nat.eqb l k); auto.
    + cbn [hits]. intros E k Ek. apply same_eq in E. subst a. rewrite El in Ek.
      injection Ek as <-. unfold set_heap. rewrite Nat.eqb_refl. auto.
  - destruct (must c1 B) as [B1|] eqn:E1; [|discriminate].
    destruct (IH1 _ _ _ E1 HB HW) as (s1 & R1 & K1 & W1 & N1 & P1 & Q1).
    destruct (IH2 _ _ _ HM K1 W1) as (s2 & R2 & K2 & W2 & N2 & P2 & Q2).
    exists s2. split; [eapply run_seq; eauto|]. split; [auto|]. split; [auto|].
    split; [lia|]. split.
    + intros l Hl. destruct (P2 l ltac:(lia)) as [E|E]; [|auto]. rewrite E. auto.
    + cbn [hits]. intros Hh l El. apply orb_true_iff in Hh. destruct Hh as [Hh|Hh].
      * destruct (P2 l) as [E|E]; auto; [apply HW in El; lia|]. rewrite E. auto.
      * apply andb_true_iff in Hh. destruct Hh as [Hb Hh]. apply negb_true_iff in Hb.
        apply Q2; auto. rewrite (unbound r c1 Hb _ _ R1). auto.
  - destruct (IH1 _ _ _ HM HB HW) as (s1 & R1 & H). exists s1.
    split; [apply run_left; auto|]. exact H.
  - destruct (must c B) as [B1|] eqn:E1; [|discriminate]. injection HM as <-.
    exists s. repeat split; auto; try apply run_stop. discriminate.
Qed.

Definition check_hit (q : prog * attr) : bool :=
  let '(p, r) := q in
  match always (init p) (args p) with
  | None => false
  | Some B =>
      match always (body p) B, must (body p) B with
      | Some B1, Some _ => sub B B1 && hits r (body p) && ok (an [] (init p ;; Loop (body p)) (pairs (args p)))
      | _, _ => false
      end
  end.

Lemma hit_sound {V} p r : check_hit (p, r) = true -> (forall x : V, exists y, y <> x) ->
  forall n (s0 s : st V) l, reached V p n s0 s -> bound (args p) s0 -> env s r = Some l ->
  exists s', iters V p 1 s s' /\ heap s' l <> heap s l.
Proof.
  unfold check_hit. intros Hc HV n s0 s l [Hs (s1 & H1 & H2)] Hb El.
  destruct (always (init p) (args p)) as [B|] eqn:E1; [|discriminate].
  destruct (always (body p) B) as [B1|] eqn:E2; [|discriminate].
  destruct (must (body p) B) as [B2|] eqn:E3; [|discriminate].
  apply andb_true_iff in Hc. destruct Hc as [Hc C3]. apply andb_true_iff in Hc.
  destruct Hc as [C1 C2].
  destruct (an [] (init p ;; Loop (body p)) (pairs (args p))) as [M|] eqn:E4; [|discriminate].
  destruct (sound [] _ _ _ _ _ _ E4 (start_inv _ _ Hs)
              (run_seq _ _ _ _ _ H1 (iters_loop _ _ _ _ H2))) as [(_ & W & _) _].
  cbn in W.
  assert (Bs : bound B s).
  { assert (Es : always (Loop (body p)) B = Some B) by (cbn [always]; rewrite E2, C1; auto).
    exact (always_sound _ _ _ _ _ Es (always_sound _ _ _ _ _ E1 Hb H1) (iters_loop _ _ _ _ H2)). }
  destruct (HV (heap s l)) as [v Hv].
  destruct (must_hit v r _ _ _ _ E3 Bs W) as (s' & R & _ & _ & _ & _ & Q).
  exists s'. split; [eapply iters_S; [exact R | constructor]|].
  rewrite (Q C2 l El). exact Hv.
Qed.

(* ---------------------------------------------------------------------- *)
(** An executor: the oracle gives the branch of each Choice (0 left) and the number
    of rounds of each Loop; the n-th array content written is n. *)

Definition cfg := (st nat * (list nat * nat))%type.

Definition ask (o : list nat) : nat * list nat :=
  match o with [] => (0, []) | x :: o' => (x, o') end.

Fixpoint repeatx (f : cfg -> option cfg) (k : nat) (z : cfg) : option cfg :=
  match k with
  | O => Some z
  | S k' => match f z with None => None | Some z' => repeatx f k' z' end
  end.

Fixpoint exec (c : cmd) (z : cfg) : option cfg :=
  let '(s, (o, i)) := z in
  match c with
  | Skip => Some z
  | New a => Some (mkst (set_env (env s) a (Some (next s)))
                        (set_heap (heap s) (next s) i) (S (next s)), (o, S i))
  | Bind a b => Some (mkst (set_env (env s) a (env s b)) (heap s) (next s), (o, i))
  | Write a => match env s a with
               | None => None
               | Some l => Some (mkst (env s) (set_heap (heap s) l i) (next s), (o, S i))
               end
  | Seq c d => match exec c z with None => None | Some z' => exec d z' end
  | Choice c d => let '(x, o') := ask o in
                  if Nat.eqb x 0 then exec c (s, (o', i)) else exec d (s, (o', i))
  | Loop c => let '(x, o') := ask o in repeatx (exec c) x (s, (o', i))
  end.

Lemma exec_sound c : forall z z', exec c z = Some z' -> run c (fst z) (fst z').
Proof.
  induction c as [|a|a b|a|c1 IH1 c2 IH2|c1 IH1 c2 IH2|c IH]; intros [s [o i]] z' H; cbn in H.
  - injection H as <-. constructor.
  - injection H as <-. constructor.
  - injection H as <-. constructor.
  - destruct (env s a) eqn:E; [|discriminate]. injection H as <-. constructor. auto.
  - destruct (exec c1 (s, (o, i))) as [z1|] eqn:E1; [|discriminate].
    apply IH1 in E1. apply IH2 in H. eapply run_seq; eauto.
  - destruct (ask o) as [x o']. destruct (Nat.eqb x 0).
    + apply run_left. apply IH1 in H. auto.
    + apply run_right. apply IH2 in H. auto.
  - destruct (ask o) as [x o']. cbn [fst]. change s with (fst (s, (o', i))).
    revert H. generalize (s, (o', i)) as z. clear s o i o'.
    induction x as [|x IHx]; intros z H; cbn in H.
    + injection H as <-. apply run_stop.
    + destruct (exec c z) as [z1|] eqn:E1; [|discriminate].
      eapply run_again; [apply IH, E1 | apply IHx, H].
Qed.

(* every argument a different array *)
Fixpoint env_of (l : list attr) (n : nat) : attr -> option loc :=
  match l with
  | [] => fun _ => None
  | a :: l' => set_env (env_of l' (S n)) a (Some n)
  end.
Definition start (p : prog) : st nat :=
  mkst (env_of (args p) 0) (fun _ => 0) (List.length (args p)).

Lemma env_of_bound l : forall n a k, env_of l n a = Some k ->
  In a l /\ n <= k < n + List.length l.
Proof.
  induction l as [|x l IH]; intros n a k H; cbn in H; [discriminate|].
  unfold set_env in H. destruct (String.eqb x a) eqn:E.
  - apply String.eqb_eq in E. subst x. injection H as <-. cbn. split; auto. lia.
  - apply IH in H. cbn. split; [tauto|lia].
Qed.

Lemma env_of_In l : forall n a, In a l -> exists k, env_of l n a = Some k.
Proof.
  induction l as [|x l IH]; intros n a H; [destruct H|]. cbn. unfold set_env.
  destruct (String.eqb x a) eqn:E; eauto.
  destruct H as [->|H]; [rewrite String.eqb_refl in E; discriminate|]. eauto.
Qed.

Lemma start_ok p : caller_state nat p (start p).
Proof.
  intros a l H. cbn in *. apply env_of_bound in H. intuition.
Qed.

Fixpoint execs (p : prog) (n : nat) (z : cfg) : option cfg :=
  match n with
  | O => Some z
  | S n' => match exec (body p) z with None => None | Some z' => execs p n' z' end
  end.

Lemma execs_sound p n : forall z z', execs p n z = Some z' -> iters nat p n (fst z) (fst z').
Proof.
  induction n as [|n IH]; intros z z' H; cbn [execs] in H.
  - injection H as <-. constructor.
  - destruct (exec (body p) z) as [z1|] eqn:E; [|discriminate].
    eapply iters_S; [apply exec_sound, E | apply IH, H].
Qed.

Definition demo (p : prog) (n : nat) (r : attr) (o : list nat) : bool :=
  match exec (init p) (start p, (o, 1)) with
  | None => false
  | Some z1 =>
      match execs p n z1 with
      | None => false
      | Some z2 =>
          match env (fst z2) r, execs p 1 z2 with
          | Some l, Some z3 => negb (Nat.eqb (heap (fst z3) l) (heap (fst z2) l))
          | _, _ => false
          end
      end
  end.

Lemma demo_sound p n r o : demo p n r o = true -> overwrites nat p n r.
Proof.
  unfold demo. intros H.
  destruct (exec (init p) (start p, (o, 1))) as [z1|] eqn:E1; [|discriminate].
  destruct (execs p n z1) as [z2|] eqn:E2; [|discriminate].
  destruct (env (fst z2) r) as [l|] eqn:El; [|discriminate].
  destruct (execs p 1 z2) as [z3|] eqn:E3; [|discriminate].
  exists (start p), (fst z2), (fst z3), l. split; [|split; [|split]]; auto.
  - split; [apply start_ok|]. exists (fst z1). split.
    + change (start p) with (fst (start p, (o, 1))). apply exec_sound; auto.
    + apply execs_sound; auto.
  - apply execs_sound; auto.
  - apply negb_true_iff, Nat.eqb_neq in H. auto.
Qed.
