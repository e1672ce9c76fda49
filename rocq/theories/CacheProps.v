(** Properties C44 (caching in the x step) and C70 (the x step of the total variation classes). *)
From mathcomp Require Import all_ssreflect all_algebra.
From mathcomp Require Import algC.
From Verif Require Import LinSolveModel LinSolveSpec LinSolveProofs LinSolveProps CacheModel.
Set Implicit Arguments.
Unset Strict Implicit.
Unset Printing Implicit Defensive.
Import Order.TTheory GRing.Theory Num.Theory.
Local Open Scope ring_scope.

Section Spec.
Variables (C : numClosedFieldType) (M : nat).
Notation vec := ('I_M -> C).
Implicit Types (h : seq (event C M)) (g D b x : vec).

(** The penalty parameter and the dictionary of the object after a history. *)
Definition cur_rho (r : C) h : C := foldl (fun r e => if e is ERho f then r * f else r) r h.
Definition cur_dict D (gm : C) h : vec :=
  let p := foldl (fun p e => if e is ESetDict D' g' then (D', g') else p) (D, gm) h in fun m => p.2 * p.1 m.

(** Initial penalty parameter: the option, or the default of the class. *)
Definition init_rho (k : kind) (r0 : option C) (lam : C) : C :=
  match r0, k with
  | Some r, _ => r
  | None, (KConv | KElastic | KGrad | KProd) => 50%:R * lam + 1
  | None, _ => 1
  end.

(** Diagonal of the normal equations of the x step: D^H D + diagonal, divided by rho for the two-block classes. *)
Definition normal_diag (k : kind) (r u : C) g : vec :=
  match k with
  | KGen | KConv | KProd => fun=> r
  | KElastic => fun=> u + r
  | KGrad => fun m => u * g m + r
  | KTwo => fun=> 1
  | KL1Grd | KProdL1 => fun m => u / r * g m + 1
  | KTV => fun m => r * g m + r
  end.

(** When the cache is valid.  It becomes valid when a dictionary is set; it may be invalid after the construction if the
    penalty was not given (unless lam is zero), and becomes invalid when the penalty changes in the two classes that
    inherit a rhochange method for another system. *)
Definition resets (k : kind) : bool := match k with KConv | KElastic | KGrad | KProd => true | _ => false end.
Definition inherits (k : kind) : bool := match k with KElastic | KGrad => true | _ => false end.
Definition valid (k : kind) (r0 : option C) (lam : C) h : bool :=
  foldl (fun ok e => match e with
    | ESetDict _ _ => true
    | ERho f => if f == 1 then ok else ~~ inherits k
    | EX _ => ok end) [|| ~~ resets k, r0 != None | lam == 0] h.

Definition positive_factors h : Prop := forall f, List.In (ERho _ f) h -> 0 < f.
End Spec.

Section Proofs.
Variables (C : numClosedFieldType) (M : nat).
Notation vec := ('I_M -> C).
Notation event := (event C M).
Notation st := (st C M).

Definition fresh (k : kind) (s : st) : Prop :=
  cache s = None \/ exists2 d, diag k s = Some d & cache s = Some (cache_of k (ahv s) d).

Definition hasattrs (k : kind) (u : C) (g : vec) (s : st) : Prop :=
  match k with
  | KElastic => mu s = Some u
  | KGrad | KL1Grd | KProdL1 => mu s = Some u /\ ghg s = Some g
  | KTV => ghg s = Some g
  | _ => True
  end.

Lemma has_diag k u g s : hasattrs k u g s -> diag k s = Some (normal_diag k (rho s) u g).
Proof. by case: k => //=; rewrite /diag /=; [move=> -> | case=> -> -> | case=> -> -> | move=> -> | case=> -> ->]. Qed.

(** Invariant, with [ok] the validity flag of the history. *)
Definition inv (k : kind) (high : bool) (u : C) (g : vec) (r : C) (p : vec * C) (ok : bool) (s : st) : Prop :=
  [/\ hasattrs k u g s, (rho s, (df s, gam s)) = (r, p), hi s = high /\ (~~ high -> cache s = None) &
      (ok || ~~ resets k) -> fresh k s].

Lemma setdict_inv k high u g r p ok s D gm : inv k high u g r p ok s ->
  exists2 s', setdict k D gm s = Some s' & inv k high u g r (D, gm) true s'.
Proof.
case=> Ha [Er Ep1] [Eh Hn] _; rewrite /setdict.
set s1 := mkSt (hi s) (mu s) (ghg s) (rho s) D gm (cache s).
have Ha1 : hasattrs k u g s1 by case: (k) Ha.
have Hd := has_diag Ha1.
case E : (hi s1); rewrite ?E ?Hd; eexists; try reflexivity.
  split; [by case: (k) Ha1 | by rewrite /= Er | | ].
    by split => //=; rewrite -Eh -[hi s]/(hi s1) E.
  move=> _; right; exists (normal_diag k (rho s1) u g) => //.
split; [by case: (k) Ha1 | by rewrite /= Er | by split | by left].
Qed.

Lemma update_inv k high u g r p ok s f : inv k high u g r p ok s ->
  exists2 s', update_rho k f s = Some s' &
    inv k high u g (r * f) p (if f == 1 then ok else ~~ inherits k) s'.
Proof.
case=> Ha [Er Ep] [Eh Hn] Hf; rewrite /update_rho.
set s1 := mkSt (hi s) (mu s) (ghg s) (rho s * f) (df s) (gam s) (cache s).
have Ha1 : hasattrs k u g s1 by case: (k) Ha.
have Hd := has_diag Ha1.
have Ev : (rho s1, (df s1, gam s1)) = (r * f, p) by rewrite /= Er -Ep.
have Hh : hi s1 = high /\ (~~ high -> cache s1 = None) by [].
case: eqP => [F1|_].
  exists s1 => //; split=> // O; case: (Hf O) => [N|[d Hd' Hc]]; [by left | right].
  have Es : s1 = s by rewrite /s1 F1 mulr1; case: (s).
  by rewrite Es; exists d.
rewrite /rhochange; case Eh1 : (hi s1); last first.
  have Hc0 : cache s1 = None by apply: (proj2 Hh); rewrite -(proj1 Hh) Eh1.
  by case: (k) Ha1 Hd => Ha1 Hd; exists s1 => //; split=> // _; left.
case: (k) Ha1 Hd Hf => Ha1 Hd Hf.
- eexists; first reflexivity; split=> //=; first by split => //; rewrite -(proj1 Hh) Eh1.
  by move=> _; right; eexists; first exact: Hd.
- eexists; first reflexivity; split=> //=; first by split => //; rewrite -(proj1 Hh) Eh1.
  by move=> _; right; eexists; first exact: Hd.
- eexists; first reflexivity; split=> //=; first by split => //; rewrite -(proj1 Hh) Eh1.
- eexists; first reflexivity; split=> //=; first by split => //; rewrite -(proj1 Hh) Eh1.
- exists s1 => //; split=> // _; case: (Hf (orbT _)) => [N|[d Hd' Hc]]; [by left | right].
  by exists d.
- rewrite Hd; eexists; first reflexivity; split=> //=; first by split => //; rewrite -(proj1 Hh) Eh1.
  by move=> _; right; eexists; first exact: Hd.
- rewrite Hd; eexists; first reflexivity; split=> //=; first by split => //; rewrite -(proj1 Hh) Eh1.
  by move=> _; right; eexists; first exact: Hd.
- eexists; first reflexivity; split=> //=; first by split => //; rewrite -(proj1 Hh) Eh1.
  by move=> _; right; eexists; first exact: Hd.
- rewrite Hd; eexists; first reflexivity; split=> //=; first by split => //; rewrite -(proj1 Hh) Eh1.
  by move=> _; right; eexists; first exact: Hd.
Qed.

Lemma xstep_inv k high u g r p ok s b : inv k high u g r p ok s -> exists x, xstep k b s = Some x.
Proof. by case=> Ha _ _ _; rewrite /xstep (has_diag Ha); eexists. Qed.

(** The classes whose constructor fails with the option. *)
Definition ctor_fails (k : kind) : bool := match k with KL1Grd | KProdL1 => true | _ => false end.

Lemma construct_inv k high r0 lam u g D gm : ~~ (high && ctor_fails k) ->
  exists2 s, construct k high r0 lam u g D gm = Some s &
    inv k high u g (init_rho k r0 lam) (D, gm) [|| ~~ resets k, r0 != None | lam == 0] s.
Proof.
move=> Hk; rewrite /construct /setdict /=.
have E0 : lam = 0 -> 50%:R * lam + 1 = 1 :> C by move=> ->; rewrite mulr0 add0r.
case: high Hk => /= Hk.
  case: k Hk => // _ /=; eexists; try reflexivity; split=> //; try (by case: r0); move=> /= Ok; right;
    try (by eexists; [reflexivity | reflexivity]).
  - eexists; first reflexivity; case: r0 Ok => //= /orP[/eqP/E0 ->|] //.
  - eexists; first reflexivity; case: r0 Ok => //= /orP[/eqP/E0 ->|] //.
  - eexists; first reflexivity; case: r0 Ok => //= /orP[/eqP/E0 ->|] //.
  - eexists; first reflexivity; case: r0 Ok => //= /orP[/eqP/E0 ->|] //.
by case: k Hk => _ /=; eexists; try reflexivity; split=> //; try (by case: r0); move=> /= Ok; left.
Qed.

Definition nextflag (k : kind) (ok : bool) (e : event) : bool :=
  match e with ESetDict _ _ => true | ERho f => if f == 1 then ok else ~~ inherits k | EX _ => ok end.

Lemma exec_inv k high u g h : forall r p ok s, inv k high u g r p ok s ->
  exists2 s', exec k h s = Some s' &
    inv k high u g (cur_rho r h) (foldl (fun p e => if e is ESetDict D' g' then (D', g') else p) p h) (foldl (nextflag k) ok h) s'.
Proof.
elim: h => [|e h IH] r p ok s I /=; first by exists s.
case: e => [D' g'|f|b] /=.
- have [s' -> I'] := setdict_inv D' g' I; exact: IH I'.
- have [s' -> I'] := update_inv f I; exact: IH I'.
- have [x ->] := xstep_inv b I; exact: IH I.
Qed.

Lemma fresh_xstep k s b : fresh k s -> xstep k b s = xstep k b (with_cache s None).
Proof. by case=> [N|[d Hd Hc]]; rewrite /xstep /= -?[diag k (with_cache s None)]/(diag k s); [case: s N => ? ? ? ? ? ? c /= -> | rewrite Hd Hc; case: k Hd Hc]. Qed.
End Proofs.

Section Theorems.
Variables (C : numClosedFieldType) (M : nat).
Notation vec := ('I_M -> C).

Lemma dbi_const (ah b : vec) (d : vec) r : d =1 (fun=> r) -> 0 < r -> block_system d [:: ah] (dbi ah d b None) b.
Proof.
move=> Ed Hr m.
have E : dbi ah d b None =1 solvedbi_sm ah r b None.
  move=> i; rewrite /dbi /solvedbi_sm Ed; congr ((_ - _ * _) / _); apply: eq_bigr => j _; by rewrite /dbi_c /solvedbi_sm_c Ed.
have H := proj1 (@C21_solvedbi_sm _ _ ah b r None Hr (or_introl erefl)) m.
rewrite -{}H; congr (_ + _); first by rewrite E Ed.
rewrite !big_seq1; congr (_ * _); apply: eq_bigr => j _; by rewrite E.
Qed.

Lemma normal_diag_gt0 k (r u : C) (g : vec) m : 0 < r -> 0 <= u -> (forall m, 0 <= g m) -> 0 < normal_diag k r u g m.
Proof.
move=> Hr Hu Hg.
case: k => //=; rewrite ?ltr01 //.
- by rewrite ltr_spaddr.
- by rewrite ltr_spaddr // mulr_ge0.
- by rewrite ltr_spaddr ?ltr01 // mulr_ge0 // divr_ge0 // ltW.
- by rewrite ltr_spaddr // mulr_ge0 // ltW.
- by rewrite ltr_spaddr ?ltr01 // mulr_ge0 // divr_ge0 // ltW.
Qed.

Lemma xstep_solves k u g (s : st C M) b x : hasattrs k u g s -> 0 < rho s -> 0 <= u -> (forall m, 0 <= g m) ->
  (if k is KTV then forall m m', g m = g m' else True) ->
  xstep k b (with_cache s None) = Some x ->
  block_system (normal_diag k (rho s) u g) [:: ahv s] x b.
Proof.
move=> Ha Hr Hu Hg Hk; rewrite /xstep -[diag k (with_cache s None)]/(diag k s) (has_diag Ha) => [[<-]].
rewrite /= -[ahv (with_cache s None)]/(ahv s).
have Hd m : 0 < normal_diag k (rho s) u g m by apply: normal_diag_gt0.
case E : (uses_dbd k); first exact: (proj1 (@C21_solvedbd_sm _ _ (ahv s) _ b None Hd (or_introl erefl))).
move=> m; apply: (@dbi_const _ _ _ (normal_diag k (rho s) u g m)); last exact: Hd.
move=> i /=; case: (k) E Hk => //= _ Hk; by rewrite (Hk i m).
Qed.

(** C44: whatever happened to the object, with a valid cache (see [valid]) or without the option the x step solves the
    normal equations of the current dictionary and the current penalty parameter, and its result is the only solution. *)
Theorem C44_exact k high (r0 : option C) (lam u : C) (g D : vec) gm h b s :
  (if r0 is Some r then 0 < r else 0 <= lam) -> 0 <= u -> (forall m, 0 <= g m) ->
  (if k is KTV then forall m m', g m = g m' else True) ->
  positive_factors h ->
  construct k high r0 lam u g D gm = Some s ->
  (high -> valid k r0 lam h) ->
  exists s' x, [/\ exec k h s = Some s', xstep k b s' = Some x,
    block_system (normal_diag k (cur_rho (init_rho k r0 lam) h) u g) [:: cur_dict D gm h] x b &
    forall y, block_system (normal_diag k (cur_rho (init_rho k r0 lam) h) u g) [:: cur_dict D gm h] y b -> y =1 x].
Proof.
move=> Hr Hu Hg Hk Hp Hc Hv.
have Hf : ~~ (high && ctor_fails k) by move: Hc; rewrite /construct /setdict; case: high {Hv} => //; case: k {Hk}.
have [s0 Es I] := construct_inv r0 lam u g D gm Hf.
move: Hc; rewrite Es => -[E]; subst s0.
have [s' Ex [Ha [Er Ep] [Eh Hn] Hfr]] := exec_inv h I.
have [x Hx] : exists x, xstep k b s' = Some x by rewrite /xstep (has_diag Ha); eexists.
have Hr0 : 0 < init_rho k r0 lam.
  by rewrite /init_rho; case: r0 Hr {Hv Es I Er Ep Hfr} => [r|] Hr //; case: k {Hk Hf Ha Hx Ex}; rewrite ?ltr01 // ltr_spaddr ?ltr01 // mulr_ge0 // ler0n.
have Hrho : 0 < cur_rho (init_rho k r0 lam) h.
  elim: (h) (init_rho k r0 lam) Hr0 Hp => [|e h' IH] r Hr1 Hp //=.
  apply: IH => [|f Hf']; last by apply: Hp; right.
  case: e Hp => //= f Hp; apply: mulr_gt0 => //; apply: Hp; by left.
have F : fresh k s'.
  case: high Hv Hf Es I Ha Eh Hn Hfr => Hv Hf Es I Ha Eh Hn Hfr.
    apply: Hfr; apply/orP; left; exact: (Hv erefl).
  by left; apply: Hn.
move: (Hx); rewrite (fresh_xstep b F) => Hx'.
have HS := @xstep_solves k u g s' b x Ha; rewrite Er in HS.
have S := HS Hrho Hu Hg Hk Hx'.
have EA : ahv s' = cur_dict D gm h by rewrite /ahv /cur_dict -Ep.
exists s', x; split=> //; first by rewrite -EA.
move=> y Hy; rewrite -EA in Hy.
have Hd m : 0 < normal_diag k (cur_rho (init_rho k r0 lam) h) u g m by apply: normal_diag_gt0.
have U := proj2 (@C21_solvedbd_sm _ _ (ahv s') _ b None Hd (or_introl erefl)).
by move=> m; rewrite (U y Hy) (U x S).
Qed.

(** The option does not change any result, for executions whose events depend on the results so far. *)
Theorem C44_same k (r0 : option C) (lam u : C) (g D : vec) gm strat n shi slo :
  ~~ resets k || (r0 != None) || (lam == 0) ->
  (inherits k -> forall i outs f, strat i outs = ERho _ f -> f = 1) ->
  construct k true r0 lam u g D gm = Some shi ->
  construct k false r0 lam u g D gm = Some slo ->
  exists outs, run k strat 0 n shi [::] = Some outs /\ run k strat 0 n slo [::] = Some outs.
Proof.
move=> Ok Hs Hhi Hlo.
have Hf : ~~ (true && ctor_fails k) by move: Hhi; rewrite /construct /setdict; case: k {Ok Hs Hlo}.
have [s0 Es I] := construct_inv r0 lam u g D gm Hf.
move: Hhi; rewrite Es => -[E]; subst s0.
have Hf' : ~~ (false && ctor_fails k) by [].
have [s0 Es' J] := construct_inv r0 lam u g D gm Hf'.
move: Hlo; rewrite Es' => -[E]; subst s0.
rewrite orbA Ok in I J.
elim: n 0%N (init_rho k r0 lam) (D, gm) (@nil vec) shi slo I J {Es Es' Ok} => [|n IH] i r p outs s1 s2 I J /=; first by exists outs.
case Ee : (strat i outs) => [D' g'|f|b] /=.
- have [s1' -> I'] := setdict_inv D' g' I; have [s2' -> J'] := setdict_inv D' g' J; exact: IH I' J'.
- have [s1' -> I'] := update_inv f I; have [s2' -> J'] := update_inv f J.
  have Ef : (if f == 1 then true else ~~ inherits k) = true.
    by case: eqP => // Nf; apply/negP => Hi; apply: Nf; apply: (Hs Hi i outs).
  rewrite Ef in I' J'; exact: IH I' J'.
- have F1 : fresh k s1 by case: I => _ _ _; apply.
  have F2 : fresh k s2 by case: J => _ _ _; apply.
  have E : xstep k b s1 = xstep k b s2.
    rewrite (fresh_xstep b F1) (fresh_xstep b F2); case: I => Ha1 [R1 P1] _ _; case: J => Ha2 [R2 P2] _ _; have [D12 G12] : (df s1, gam s1) = (df s2, gam s2) by rewrite P1 P2.
    rewrite /xstep -[diag k (with_cache s1 None)]/(diag k s1) -[diag k (with_cache s2 None)]/(diag k s2).
    by rewrite (has_diag Ha1) (has_diag Ha2) /ahv /= R1 R2 D12 G12.
  have [x Hx] := xstep_inv b J; rewrite E Hx; exact: IH I J.
Qed.

(** A cached vector for the scalar [d0] used with the scalar [d] gives a wrong result. *)
Lemma wrong_cache (d0 d : C) (c x : vec) : (0 < M)%N -> 0 < d0 -> 0 < d -> d0 != d ->
  (forall m, c m = 1 / (M%:R + d0)) -> (forall m, x m = (1 - 1 * inner c (fun=> 1)) / d) ->
  ~ block_system (fun=> d) [:: fun=> 1] x (fun=> 1).
Proof.
move=> HM H0 Hd Hne Hc Hx /(_ (Ordinal HM)); rewrite big_seq1 conjC1 mul1r.
have HMr : 0 < M%:R :> C by rewrite ltr0n.
have nd : d != 0 by rewrite lt0r_neq0.
have nM : M%:R + d0 != 0 by rewrite lt0r_neq0 // addr_gt0.
have Ei : inner c (fun=> 1) = M%:R / (M%:R + d0).
  rewrite /inner (eq_bigr (fun=> 1 / (M%:R + d0))); last by move=> i _; rewrite Hc mulr1.
  by rewrite sumr_const card_ord div1r mulr_natl.
have Ex m : x m = d0 / (M%:R + d0) / d.
  rewrite Hx Ei mul1r; congr (_ / _); apply: (mulIf nM); rewrite mulrBl !divfK // mul1r addrAC subrr add0r //.
rewrite (eq_bigr (fun=> d0 / (M%:R + d0) / d)) => [|i _]; last by rewrite mul1r Ex.
rewrite Ex sumr_const card_ord -[_ / d *+ M]mulr_natl [d * _]mulrC divfK //.
move=> E; move/eqP: Hne; apply.
have: (d0 / (M%:R + d0) + M%:R * (d0 / (M%:R + d0) / d)) * ((M%:R + d0) * d) = (M%:R + d0) * d by rewrite E mul1r.
rewrite mulrDl mulrA divfK // -!mulrA [d^-1 * _]mulrCA mulVf // mulr1 [_^-1 * _]mulVf // mulr1 => E2.
have : d0 * d + M%:R * d0 = d0 * d + M%:R * d by rewrite E2 mulrDl addrC.
by move/addrI/(mulfI (lt0r_neq0 HMr)).
Qed.

Lemma ones_inner : inner (fun _ : 'I_M => 1 : C) (fun=> 1^*) = M%:R.
Proof. by rewrite /inner (eq_bigr (fun=> 1)) ?sumr_const ?card_ord // => i _; rewrite conjC1 mulr1. Qed.

(** Refuted: with the option and the default penalty parameter the first x step is wrong for every positive lam, because the
    constructor fills the cache before it sets the penalty parameter. *)
Theorem C44_default_penalty_refuted (lam : C) (g : vec) : (0 < M)%N -> 0 < lam ->
  exists s x, [/\ construct KConv true None lam 0 g (fun=> 1) 1 = Some s, xstep KConv (fun=> 1) s = Some x &
    ~ block_system (normal_diag KConv (init_rho KConv None lam) 0 g) [:: cur_dict (fun=> 1) 1 [::]] x (fun=> 1)].
Proof.
move=> HM Hl; eexists; eexists; split; [reflexivity | reflexivity | ].
rewrite /normal_diag /init_rho /cur_dict /= mulr1.
apply: (@wrong_cache 1 _ _ _ HM) => //; rewrite ?ltr01 //.
- by rewrite ltr_spaddr ?ltr01 // mulr_ge0 ?ler0n // ltW.
- rewrite -subr_eq0 opprD addrCA subrr addr0 oppr_eq0; apply: mulf_neq0; [by rewrite pnatr_eq0 | exact: lt0r_neq0].
- by move=> m; rewrite /cache_of /= /dbi_c /ahv /conjv /= ?mulr1 ones_inner /dbi conjC1.
Qed.

(** Refuted: in the elastic net and gradient classes a change of the penalty parameter (by the adaptive update) fills the
    cache for another system; the next x step is wrong for every mu > 0 and every factor other than one. *)
Theorem C44_penalty_change_refuted k (r u f : C) : (0 < M)%N -> 0 < r -> 0 < u -> 0 < f -> f != 1 -> inherits k ->
  let one : vec := fun=> 1 in
  exists s s' x, [/\ construct k true (Some r) 0 u one one 1 = Some s, exec k [:: ERho M f] s = Some s',
    xstep k one s' = Some x &
    ~ block_system (normal_diag k (cur_rho r [:: ERho M f]) u one) [:: cur_dict one 1 [:: ERho M f]] x one].
Proof.
move=> HM Hr Hu Hf Nf Hk one; rewrite /one {one}.
have Hrf : 0 < r * f by rewrite mulr_gt0.
have Hd : 0 < u + r * f by rewrite addr_gt0.
have Hne : r * f != u + r * f by rewrite eq_sym -subr_eq0 addrK lt0r_neq0.
case: k Hk => // _; eexists; eexists; eexists; (split; [reflexivity | by rewrite /= /update_rho (negbTE Nf) | reflexivity | ]);
  rewrite /normal_diag /cur_rho /cur_dict /= ?mulr1; apply: (@wrong_cache (r * f) _ _ _ HM) => //.
- by move=> m; rewrite /dbi_c /ahv /conjv /= ?mulr1 ones_inner /dbi conjC1.
- by move=> m; rewrite /dbi_c /ahv /conjv /= ?mulr1 ones_inner /solvedbd_sm conjC1.
Qed.

(** Refuted: the classes with gradient regularisation of an l1 data term cannot be constructed with the option (their
    constructor reads mu before it is set); all other constructions succeed. *)
Theorem C44_construct_iff k high (r0 : option C) (lam u : C) (g D : vec) gm :
  construct k high r0 lam u g D gm = None <-> high /\ ctor_fails k.
Proof.
split; last by case: high => [] [] // _; case: k.
case E : (high && ctor_fails k); first by move/andP: E.
by have [s -> _] := construct_inv r0 lam u g D gm (negbT E).
Qed.

(** C70: solvedbi_sm with a diagonal that differs between the filters.  It is right for every dictionary and right hand
    side exactly if the diagonal is uniform. *)
Theorem C70_iff (d : vec) : (forall m, 0 < d m) ->
  ((forall ah b, block_system d [:: ah] (dbi ah d b None) b) <-> (forall m m', d m = d m')).
Proof.
move=> Hd; split; last first.
  move=> Hu ah b m; apply: (@dbi_const _ _ _ (d m)) => //.
move=> H i j; apply/eqP; apply/negPn/negP => Nij.
have Nij' : i != j by apply/eqP => E; move: Nij; rewrite E eqxx.
pose e (p q : 'I_M) : C := (p == q)%:R.
have := H (fun m => e m i + e m j) (fun m => e m i) j; rewrite big_seq1.
have nz m : d m != 0 by rewrite lt0r_neq0.
have S (F : 'I_M -> C) : \sum_n (e n i + e n j) * F n = F i + F j.
  rewrite (eq_bigr (fun n => e n i * F n + e n j * F n)) => [|n _]; last by rewrite mulrDl.
  rewrite big_split /=; congr (_ + _).
    by rewrite (bigD1 i) //= /e eqxx mul1r big1 ?addr0 // => n /negbTE ->; rewrite mul0r.
  by rewrite (bigD1 j) //= /e eqxx mul1r big1 ?addr0 // => n /negbTE ->; rewrite mul0r.
rewrite S.
have eii : e i i = 1 by rewrite /e eqxx.
have ejj : e j j = 1 by rewrite /e eqxx.
have eij : e i j = 0 by rewrite /e (negbTE Nij').
have eji : e j i = 0 by rewrite /e eq_sym (negbTE Nij').
have In : inner (fun m => e m i + e m j) (fun m => (e m i + e m j)^*) = 2%:R.
  by rewrite /inner S eii eij ejj eji addr0 add0r conjC1 -[2%:R]/(1 + 1).
have Ic : inner (dbi_c (fun m => e m i + e m j) (fun m => (e m i + e m j)^*) d) (fun m => e m i) = 1 / (2%:R + d i).
  rewrite /inner (bigD1 i) //= big1 ?addr0 => [|n /negbTE Hn]; last by rewrite /e Hn mulr0.
  by rewrite eii mulr1 /dbi_c In eii eij addr0.
rewrite /dbi Ic eii eij ejj eji addr0 add0r conjC1 !mul1r add0r.
set q := 2%:R + d i.
have nq : q != 0 by rewrite lt0r_neq0 // addr_gt0 // ltr0n.
rewrite mulrC divfK // => E.
have Et : q^-1 * d i = 1 - q^-1 - q^-1.
  have : q^-1 * q = q^-1 + q^-1 + q^-1 * d i by rewrite /q mulrDr -[2%:R]/(1 + 1) mulrDr mulr1.
  by rewrite mulVf // => Eq; rewrite {1}Eq -[_ - _ - _]addrA -opprD [_ + q^-1 * d i]addrC addrK.
rewrite conjC1 !mul1r in E.
have E1 : (1 - q^-1) / d i = q^-1 + q^-1 / d i by rewrite -[1 - q^-1](subrK q^-1) -Et mulrDl mulfK.
move: E; rewrite E1 !addrA addNr add0r mulNr -mulrBr => /eqP; rewrite mulf_eq0 invr_eq0 (negbTE nq) /= subr_eq0.
by move=> /eqP/invr_inj E; move: Nij; rewrite E eqxx.
Qed.
End Theorems.
Print Assumptions C44_exact.
Print Assumptions C44_same.
Print Assumptions C44_default_penalty_refuted.
Print Assumptions C44_penalty_change_refuted.
Print Assumptions C44_construct_iff.
Print Assumptions C70_iff.

(** So the x step of the total variation classes is exact if the total variation weight is the same for all filters, and
    wrong for some dictionary otherwise (cbpdntv.py 290-292; 214-215 allows a weight for each filter). *)
Theorem C70_weights (C : numClosedFieldType) M (r : C) (g : 'I_M -> C) : 0 < r -> (forall m, 0 <= g m) ->
  ((forall D b s, construct KTV false (Some r) 0 0 g D 1 = Some s ->
      exists x, xstep KTV b s = Some x /\ block_system (normal_diag KTV r 0 g) [:: D] x b)
   <-> forall m m', g m = g m').
Proof.
move=> Hr Hg.
have Hd m : 0 < r * g m + r by rewrite ltr_spaddr // mulr_ge0 // ltW.
have I := C70_iff Hd.
have Ev D b : exists s, construct KTV false (Some r) 0 0 g D 1 = Some s /\
  xstep KTV b s = Some (dbi (fun m => 1 * D m) (fun m => r * g m + r) b None) by eexists; split.
split=> [H m m'|H D b s Hs].
- have U : forall m m', r * g m + r = r * g m' + r.
    apply/I => ah b; have [s [Hs Hx]] := Ev ah b; have [x [Hx' S]] := H ah b s Hs.
    move: Hx'; rewrite Hx => -[E]; move: S; rewrite -E /normal_diag.
    have Ea m0 : dbi (fun m : 'I_M => 1 * ah m) (fun m : 'I_M => r * g m + r) b None m0 =
                 dbi ah (fun m : 'I_M => r * g m + r) b None m0.
      rewrite /dbi mul1r; congr ((_ - _ * _) / _); apply: eq_bigr => j _; rewrite /dbi_c mul1r; congr (_ / (_ + _) * _).
      by apply: eq_bigr => l _; rewrite !mul1r.
    move=> S m0; rewrite -[RHS](S m0) !big_seq1 Ea; congr (_ + _ * _); apply: eq_bigr => j _; by rewrite Ea.
  by have /addIr/(mulfI (lt0r_neq0 Hr)) := U m m'.
- have [s' [Hs' Hx]] := Ev D b; move: Hs'; rewrite Hs => -[E]; subst s'.
  eexists; split; first exact: Hx.
  have U : forall m m', r * g m + r = r * g m' + r by move=> m m'; rewrite (H m m').
  move/I: U => /(_ (fun m => 1 * D m) b) S m; rewrite -[RHS](S m) !big_seq1 /normal_diag !mul1r; congr (_ + _ * _).
  by apply: eq_bigr => j _; rewrite mul1r.
Qed.
Print Assumptions C70_weights.

(** Concrete cases meeting the hypotheses: an elastic net object with one filter, penalty 2 and mu 3; a dictionary change after
    a penalty change makes the cache valid again. *)
Example C44_ex : let h := [:: ERho 1 (2%:R : algC); ESetDict (fun=> 5%:R) 1; EX (fun=> 1)] in
  [/\ valid KElastic (Some 2%:R) 0 h, positive_factors h, ~~ valid KElastic (Some 2%:R) 0 [:: ERho 1 (2%:R : algC)] &
      cur_rho 2%:R h = 4%:R].
Proof.
have N : (2%:R == 1 :> algC) = false by rewrite -[1]/(1%:R) eqr_nat.
split; [by [] | | by rewrite /valid /= N | by rewrite /= -natrM].
by move=> f /= [[<-]|[|[]]] //; rewrite ltr0n.
Qed.

Example C70_ex : (forall m : 'I_2, 0 < (if m == 0 then 1 else 2%:R) :> algC).
Proof. by move=> m; case: ifP => _; rewrite ?ltr01 ?ltr0n. Qed.
