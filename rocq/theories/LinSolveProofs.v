From mathcomp Require Import all_ssreflect all_algebra.
From Verif Require Import LinSolveModel LinSolveSpec.
Set Implicit Arguments.
Unset Strict Implicit.
Unset Printing Implicit Defensive.
Import Order.TTheory GRing.Theory Num.Theory.
Local Open Scope ring_scope.

Section DiagBlock.
Variables (C : numClosedFieldType) (M : nat).
Implicit Types (ah a b d x y g : 'I_M -> C) (ahs : seq ('I_M -> C)).

Definition op d ahs x : 'I_M -> C := fun m => d m * x m + \sum_(ah <- ahs) (ah m)^* * inner ah x.

Lemma innerB ah x g c : inner ah (fun m => x m - g m * c) = inner ah x - inner ah g * c.
Proof.
rewrite /inner mulr_suml -sumrB; apply: eq_bigr => m _; by rewrite mulrBr mulrA.
Qed.

Lemma eq_inner ah x y : x =1 y -> inner ah x = inner ah y.
Proof. by move=> E; apply: eq_bigr => m _; rewrite E. Qed.

Lemma opB d ahs x g c m : op d ahs (fun m => x m - g m * c) m = op d ahs x m - op d ahs g m * c.
Proof.
rewrite /op mulrBr mulrDl mulr_suml mulrA.
have -> : \sum_(ah <- ahs) (ah m)^* * inner ah (fun m0 => x m0 - g m0 * c) =
  \sum_(ah <- ahs) ((ah m)^* * inner ah x - (ah m)^* * inner ah g * c).
  by apply: eq_bigr => ah _; rewrite innerB mulrBr mulrA.
by rewrite sumrB opprD addrACA.
Qed.

Lemma op_rcons d ahs ah x m : op d (rcons ahs ah) x m = op d ahs x m + (ah m)^* * inner ah x.
Proof. by rewrite /op -cats1 big_cat big_seq1 /= addrA. Qed.

Lemma eq_op d ahs x y : x =1 y -> op d ahs x =1 op d ahs y.
Proof. move=> E m; rewrite /op E; congr (_ + _); apply: eq_bigr => ah _; by rewrite (eq_inner _ E). Qed.

Lemma sm_update_ok d ahs ah g delta x y : delta = 1 + inner ah g -> delta != 0 ->
  op d ahs x =1 y -> op d ahs g =1 (fun m => (ah m)^*) ->
  op d (rcons ahs ah) (sm_update ah g delta x) =1 y.
Proof.
move=> Ed nz Hx Hg m; rewrite op_rcons /sm_update.
have E : (fun m0 => x m0 - g m0 * inner ah x / delta) =1 (fun m0 => x m0 - g m0 * (inner ah x / delta)).
  by move=> k; rewrite mulrA.
rewrite (eq_op _ _ E) (eq_inner _ E) opB innerB Hx Hg.
have Eg : inner ah g = delta - 1 by rewrite Ed addrC addKr.
rewrite Eg mulrBl mul1r (mulrC delta) divfK // opprB addrC [X in (ah m)^* * X]addrC subrK.
by rewrite addrC subrK.
Qed.

(** Positivity of the coefficient that is divided by. *)
Lemma inner_conj x : inner (fun m => (x m)^*) x = \sum_m `|x m| ^+ 2.
Proof. by apply: eq_bigr => m _; rewrite normCK mulrC. Qed.

Lemma inner_pos d ahs ah g : (forall m, 0 <= d m) -> op d ahs g =1 (fun m => (ah m)^*) -> 0 <= inner ah g.
Proof.
move=> Hd Hg.
have E : (inner ah g)^* = \sum_m (g m)^* * op d ahs g m.
  rewrite /inner rmorph_sum; apply: eq_bigr => m _.
  by rewrite Hg rmorphM mulrC.
suff H : 0 <= (inner ah g)^*.
  rewrite -(conjCK (inner ah g)); move: H; set z := (_ ^*) => H.
  by rewrite conj_Creal // ger0_real.
rewrite E /op.
have -> : \sum_m (g m)^* * (d m * g m + \sum_(k <- ahs) (k m)^* * inner k g) =
          \sum_m d m * `|g m| ^+ 2 + \sum_(k <- ahs) `|inner k g| ^+ 2.
  transitivity (\sum_m (g m)^* * (d m * g m) + \sum_m (g m)^* * \sum_(k <- ahs) (k m)^* * inner k g).
    by rewrite -big_split /=; apply: eq_bigr => m _; rewrite mulrDr.
  congr (_ + _).
    by apply: eq_bigr => m _; rewrite normCK mulrCA (mulrC (g m)).
  under eq_bigr do rewrite mulr_sumr.
  rewrite exchange_big /=; apply: eq_bigr => k _.
  rewrite normCK {3}/inner rmorph_sum mulr_sumr; apply: eq_bigr => m _.
  by rewrite rmorphM mulrC -mulrA mulrCA mulrA; rewrite mulrC mulrA [X in X * _]mulrC -mulrA; congr (_ * _); rewrite mulrC.
apply: addr_ge0; apply: sumr_ge0 => i _; last exact: exprn_ge0.
by apply: mulr_ge0 => //; exact: exprn_ge0.
Qed.

Lemma delta_neq0 d ahs ah g : (forall m, 0 <= d m) -> op d ahs g =1 (fun m => (ah m)^*) -> 1 + inner ah g != 0.
Proof. move=> Hd Hg; have P := inner_pos Hd Hg; by rewrite lt0r_neq0 // ltr_spaddl // ltr01. Qed.

Lemma op_system d ahs x b : op d ahs x =1 b <-> block_system d ahs x b.
Proof. by []. Qed.

(** Single block. *)
Lemma solvedbd_ok ah d b : (forall m, 0 < d m) ->
  op d [:: ah] (solvedbd_sm ah d b None) =1 b.
Proof.
move=> Hd.
have nz m : d m != 0 by rewrite lt0r_neq0.
pose g := fun m => (ah m)^* / d m.
have Hg : op d [::] g =1 (fun m => (ah m)^*).
  by move=> m; rewrite /op big_nil addr0 /g mulrC divfK.
have D : 1 + inner ah g != 0 by apply: (@delta_neq0 d [::]) => // m; exact: ltW.
have Hx : op d [::] (fun m => b m / d m) =1 b.
  by move=> m; rewrite /op big_nil addr0 mulrC divfK.
move=> m; rewrite -[RHS](@sm_update_ok d [::] ah g (1 + inner ah g) (fun m => b m / d m) b) //.
have Ec : inner (solvedbd_sm_c ah (fun m0 => (ah m0)^*) d) b = inner ah (fun i => b i / d i) / (1 + inner ah g).
  rewrite /inner mulr_suml; apply: eq_bigr => i _.
  rewrite /solvedbd_sm_c /inner [X in _ / X * _]addrC -/g mulrAC; congr (_ / _).
  by rewrite -!mulrA; congr (_ * _); rewrite mulrC.
apply: eq_op => k; rewrite /solvedbd_sm /sm_update mulrBl; congr (_ - _).
rewrite Ec /g -!mulrA; congr (_ * _); by rewrite mulrA mulrC.
Qed.

Lemma solvedbi_dbd ah rho b : 0 < rho -> solvedbi_sm ah rho b None =1 solvedbd_sm ah (fun=> rho) b None.
Proof.
move=> Hr m; have nz : rho != 0 by rewrite lt0r_neq0.
rewrite /solvedbi_sm /solvedbd_sm; congr ((_ - _ * _) / _).
apply: eq_bigr => i _; congr (_ * _).
rewrite /solvedbi_sm_c /solvedbd_sm_c.
have -> : inner ah (fun i0 => (ah i0)^* / rho) = inner ah (fun i0 => (ah i0)^*) / rho.
  by rewrite /inner mulr_suml; apply: eq_bigr => k _; rewrite mulrA.
set s := inner _ _.
have -> : s / rho + 1 = (s + rho) / rho by rewrite mulrDl divff.
by rewrite invfM invrK -mulrA [rho^-1 * _]mulrCA mulVf // mulr1.
Qed.

(** Iterated Sherman-Morrison. *)
Definition pre (h : seq (('I_M -> C) * ('I_M -> C) * C)) : seq ('I_M -> C) := map (fun z => z.1.1) h.

Fixpoint good_from (rho : C) (p : seq ('I_M -> C)) (h : seq (('I_M -> C) * ('I_M -> C) * C)) : Prop :=
  if h is z :: h' then
    [/\ op (fun=> rho) p z.1.2 =1 (fun m => (z.1.1 m)^*), z.2 = 1 + inner z.1.1 z.1.2, z.2 != 0 &
        good_from rho (rcons p z.1.1) h']
  else True.

Lemma good_rcons rho h : forall p ah g dl, good_from rho p h ->
  op (fun=> rho) (p ++ pre h) g =1 (fun m => (ah m)^*) -> dl = 1 + inner ah g -> dl != 0 ->
  good_from rho p (rcons h (ah, g, dl)).
Proof.
elim: h => [|z h IH] p ah g dl /=; first by rewrite cats0.
move=> [H1 H2 H3 H4] Hg Ed nz; split=> //; apply: IH => //.
by rewrite cat_rcons.
Qed.

Lemma ism_inner_ok rho h : forall p x y, good_from rho p h -> op (fun=> rho) p x =1 y ->
  op (fun=> rho) (p ++ pre h) (ism_inner h x) =1 y.
Proof.
elim: h => [|z h IH] p x y /=; first by rewrite cats0.
move=> [H1 H2 H3 H4] Hx; rewrite -cat_rcons; apply: IH => //.
exact: sm_update_ok.
Qed.

Lemma ism_loop_ok rho b rest : 0 < rho -> forall h alpha beta, good_from rho [::] h ->
  op (fun=> rho) (pre h) beta =1 b ->
  (if rest is ah :: _ then op (fun=> rho) (pre h) alpha =1 (fun m => (ah m)^*) else True) ->
  op (fun=> rho) (pre h ++ rest) (ism_loop rho h alpha beta rest) =1 b.
Proof.
move=> Hr; have nz : rho != 0 by rewrite lt0r_neq0.
elim: rest => [|ah rest IH] h alpha beta Hh Hb Ha; first by rewrite cats0.
rewrite [ism_loop _ _ _ _ _]/=.
have D : 1 + inner ah alpha != 0 by apply: (@delta_neq0 (fun=> rho) (pre h)) => // m; exact: ltW.
have Hh' : good_from rho [::] (rcons h (ah, alpha, 1 + inner ah alpha)) by apply: good_rcons.
have Ep : pre (rcons h (ah, alpha, 1 + inner ah alpha)) = rcons (pre h) ah by rewrite /pre map_rcons.
rewrite -cat_rcons -Ep; apply: IH => //.
- rewrite Ep; exact: sm_update_ok.
- case: (rest) => // ah1 rest1.
  rewrite -[pre _]/([::] ++ pre _); apply: ism_inner_ok => //.
  by move=> m; rewrite /op big_nil addr0 mulrC divfK.
Qed.

Lemma solvemdbi_ism_ok ah0 ahs rho b : 0 < rho ->
  op (fun=> rho) (ah0 :: ahs) (solvemdbi_ism ah0 ahs rho b) =1 b.
Proof.
move=> Hr; have nz : rho != 0 by rewrite lt0r_neq0.
apply: (@ism_loop_ok rho b (ah0 :: ahs) Hr [::]) => //= m; rewrite /op big_nil addr0 mulrC divfK //.
Qed.

(** Explicit inverse. *)
Definition app (A : 'M[C]_M) (b : 'I_M -> C) : 'I_M -> C := fun m => \sum_(n < M) A m n * b n.

Lemma inner_app A ah b : inner ah (app A b) = \sum_n inner ah (fun m => A m n) * b n.
Proof.
rewrite /inner /app; transitivity (\sum_m \sum_n ah m * (A m n * b n)).
  by apply: eq_bigr => m _; rewrite mulr_sumr.
rewrite exchange_big /=; apply: eq_bigr => n _; rewrite mulr_suml; apply: eq_bigr => k _; by rewrite mulrA.
Qed.

Lemma rsm_step_app A ah b :
  app (rsm_step A ah) b =1 sm_update ah (app A (fun m => (ah m)^*)) (1 + inner ah (app A (fun m => (ah m)^*))) (app A b).
Proof.
move=> m; rewrite /sm_update inner_app.
set g := app A (fun m => (ah m)^*); set t := 1 + _.
transitivity (\sum_n (A m n * b n - g m * inner ah (fun k => A k n) / t * b n)).
  by apply: eq_bigr => n _; rewrite /rsm_step mxE mulrBl.
rewrite sumrB; congr (_ - _).
rewrite mulr_sumr mulr_suml; apply: eq_bigr => n _.
by rewrite mulrAC mulrA.
Qed.

Lemma rsm_ok rho ahs : 0 < rho -> forall b,
  op (fun=> rho) ahs (app (foldl (@rsm_step C M) (\matrix_(m, n) ((m == n)%:R / rho)) ahs) b) =1 b.
Proof.
move=> Hr; have nz : rho != 0 by rewrite lt0r_neq0.
elim/last_ind: ahs => [|ahs ah IH] b.
  move=> m; rewrite /op big_nil addr0 /app /= (bigD1 m) //= mxE eqxx mul1r big1 ?addr0; first by rewrite mulrA divff // mul1r.
  by move=> n; rewrite eq_sym => /negbTE nm; rewrite mxE nm mul0r mul0r.
rewrite foldl_rcons => m.
rewrite (eq_op _ _ (rsm_step_app _ _ _)).
apply: sm_update_ok => //.
apply: (@delta_neq0 (fun=> rho) ahs) => // k; exact: ltW.
Qed.

(** Uniqueness of the solution. *)
Lemma op_unique d ahs x y b : (forall m, 0 < d m) -> op d ahs x =1 b -> op d ahs y =1 b -> x =1 y.
Proof.
move=> Hd Hx Hy.
pose g := fun m => x m - y m * 1.
have Hg m : op d ahs g m = 0 by rewrite opB Hx Hy mulr1 subrr.
have Q : \sum_m (g m)^* * op d ahs g m = \sum_m d m * `|g m| ^+ 2 + \sum_(k <- ahs) `|inner k g| ^+ 2.
  rewrite /op.
  transitivity (\sum_m (g m)^* * (d m * g m) + \sum_m (g m)^* * \sum_(k <- ahs) (k m)^* * inner k g).
    by rewrite -big_split /=; apply: eq_bigr => m _; rewrite mulrDr.
  congr (_ + _).
    by apply: eq_bigr => m _; rewrite normCK mulrCA (mulrC (g m)).
  under eq_bigr do rewrite mulr_sumr.
  rewrite exchange_big /=; apply: eq_bigr => k _.
  rewrite normCK {3}/inner rmorph_sum mulr_sumr; apply: eq_bigr => m _.
  by rewrite rmorphM mulrC -mulrA mulrCA mulrA; rewrite mulrC mulrA [X in X * _]mulrC -mulrA; congr (_ * _); rewrite mulrC.
have Z : \sum_m (g m)^* * op d ahs g m = 0 by rewrite big1 // => m _; rewrite Hg mulr0.
rewrite Z in Q.
have P1 : forall m, 0 <= d m * `|g m| ^+ 2 by move=> m; rewrite mulr_ge0 ?exprn_ge0 // ltW.
have P2 : 0 <= \sum_(k <- ahs) `|inner k g| ^+ 2 by apply: sumr_ge0 => k _; exact: exprn_ge0.
have S0 : \sum_m d m * `|g m| ^+ 2 = 0.
  by move/esym/eqP: Q; rewrite paddr_eq0 // ?sumr_ge0 // => /andP[/eqP].
move=> m.
have /eqP := S0; rewrite psumr_eq0 // => /allP /(_ m (mem_index_enum _)).
rewrite mulf_eq0 (gt_eqF (Hd m)) /= expf_eq0 /= normr_eq0 /g mulr1 subr_eq0 => /eqP //.
Qed.
End DiagBlock.

Section Factored.
Variable F : fieldType.
Variable solve : forall n k, 'M[F]_n -> bool -> 'M[F]_(n, k) -> 'M[F]_(n, k).
Hypothesis Hs : solves solve.

Lemma tr_gram1 n m (A : 'M[F]_(n, m)) rho : (A^T *m A + rho%:M)^T = A^T *m A + rho%:M.
Proof. by rewrite linearD /= trmx_mul trmxK tr_scalar_mx. Qed.
Lemma tr_gram2 n m (A : 'M[F]_(n, m)) rho : (A *m A^T + rho%:M)^T = A *m A^T + rho%:M.
Proof. by rewrite linearD /= trmx_mul trmxK tr_scalar_mx. Qed.

Definition factored n m (A : 'M[F]_(n, m)) rho : Prop :=
  match factor_matrix A rho with inl G => G \in unitmx | inr G => G \in unitmx end.

Lemma atai_ok tr n m k (A : 'M[F]_(n, m)) rho (b : 'M[F]_(m, k)) : rho != 0 -> factored A rho ->
  (A^T *m A + rho%:M) *m solve_ATAI solve tr A rho b (factor_matrix A rho) = b.
Proof.
move=> nz; rewrite /factored /solve_ATAI /factor_matrix; case: ifP => _ U; first exact: (@Hs _ _ _ false b U).
have E : (A *m A^T + rho%:M) *m solve (A *m A^T + rho%:M) tr (A *m b) = A *m b.
  by have := @Hs _ _ _ tr (A *m b) U; case: tr; rewrite ?tr_gram2.
set y := solve _ _ _ in E *.
rewrite -scalemxAr mulmxBr [X in X - _]mulmxDl [X in _ - X]mulmxA [X in _ - X *m y](_ : _ = A^T *m (A *m A^T + rho%:M)); last first.
  by rewrite mulmxDl mulmxDr -mulmxA mul_scalar_mx mul_mx_scalar.
by rewrite -[X in _ - X]mulmxA E mulmxA addrC addKr mul_scalar_mx scalerA mulVf // scale1r.
Qed.

Lemma aati_ok n m k (A : 'M[F]_(n, m)) rho (b : 'M[F]_(k, n)) : rho != 0 -> factored A rho ->
  solve_AATI solve A rho b (factor_matrix A rho) *m (A *m A^T + rho%:M) = b.
Proof.
move=> nz; rewrite /factored /solve_AATI /factor_matrix; case: ifP => _ U.
- have := @Hs _ _ _ false (b *m A)^T U; set y := solve _ _ _ => /(congr1 trmx); rewrite trmx_mul tr_gram1 trmxK => E.
  rewrite -scalemxAl mulmxBl mulmxDr -[X in _ - X]mulmxA [X in _ - _ *m X](_ : _ = (A^T *m A + rho%:M) *m A^T); last first.
    by rewrite mulmxDl mulmxDr mulmxA mul_scalar_mx mul_mx_scalar.
  by rewrite [X in _ - X]mulmxA E mulmxA addrC addKr mul_mx_scalar scalerA mulVf // scale1r.
- by have := @Hs _ _ _ false b^T U => /(congr1 trmx); rewrite trmx_mul tr_gram2 trmxK.
Qed.
End Factored.

Section PosDef.
Variable R : realFieldType.

Lemma quad_sum n (v : 'rV[R]_n) : (v *m v^T) 0 0 = \sum_i v 0 i ^+ 2.
Proof. by rewrite mxE; apply: eq_bigr => i _; rewrite mxE expr2. Qed.

Lemma quad_ge0 n (v : 'rV[R]_n) : 0 <= (v *m v^T) 0 0.
Proof. by rewrite quad_sum sumr_ge0 // => i _; rewrite sqr_ge0. Qed.

Lemma quad_eq0 n (v : 'rV[R]_n) : (v *m v^T) 0 0 = 0 -> v = 0.
Proof.
rewrite quad_sum => /eqP; rewrite psumr_eq0; last by move=> i _; rewrite sqr_ge0.
move=> /allP H; apply/rowP => i; rewrite mxE; have := H i (mem_index_enum _).
by rewrite /= sqrf_eq0 => /eqP.
Qed.

Lemma gram_unit n m (A : 'M[R]_(n, m)) rho : 0 < rho -> A^T *m A + rho%:M \in unitmx.
Proof.
move=> Hr; rewrite -row_free_unit; apply: inj_row_free => v H.
have Q : (v *m (A^T *m A + rho%:M) *m v^T) 0 0 = (v *m A^T *m (v *m A^T)^T) 0 0 + rho * (v *m v^T) 0 0.
  by rewrite mulmxDr mulmxDl mxE trmx_mul trmxK !mulmxA mul_mx_scalar -scalemxAl [X in _ + X]mxE.
rewrite H mul0mx mxE in Q.
apply: quad_eq0; apply/eqP; rewrite eq_le quad_ge0 andbT.
have P := quad_ge0 (v *m A^T).
rewrite -(pmulr_rle0 _ Hr).
by rewrite -(ler_add2l ((v *m A^T *m (v *m A^T)^T) 0 0)) -Q addr0.
Qed.

Lemma gram_unit2 n m (A : 'M[R]_(n, m)) rho : 0 < rho -> A *m A^T + rho%:M \in unitmx.
Proof. by move=> Hr; have := @gram_unit m n A^T rho Hr; rewrite trmxK. Qed.
End PosDef.

Section Sylvester.
Variable R : realFieldType.
Variable eigh : forall n, 'M[R]_n -> 'rV[R]_n * 'M[R]_n.

(** Transformation back of the equation in eigenvector coordinates. *)
Definition optQ n (Q : option 'M[R]_n) : 'M[R]_n := if Q is Some Q then Q else 1%:M.

Lemma diag_entry n m (LA : 'rV[R]_n) (LB : 'rV[R]_m) (T : 'M[R]_(n, m)) alpha :
  (forall i j, LB 0 j * LA 0 i + alpha != 0) ->
  let Y := \matrix_(i, j) (T i j / (LB 0 j * LA 0 i + alpha)) in
  diag_mx LA *m Y *m diag_mx LB + alpha *: Y = T.
Proof.
move=> nz Y; apply/matrixP => i j; rewrite mul_diag_mx mul_mx_diag !mxE.
set t := T i j / _.
have -> : LA 0 i * t * LB 0 j = t * (LB 0 j * LA 0 i) by rewrite mulrAC mulrC [LA 0 i * _]mulrC.
by rewrite [alpha * t]mulrC -mulrDr /t divfK.
Qed.

Lemma sylv_core n m (LA : 'rV[R]_n) (LB : 'rV[R]_m) (QA : 'M[R]_n) (QB : 'M[R]_m) (Cm : 'M[R]_(n, m)) alpha :
  QA^T *m QA = 1%:M -> QB^T *m QB = 1%:M -> (forall i j, LB 0 j * LA 0 i + alpha != 0) ->
  let X := QA *m (\matrix_(i, j) ((QA^T *m Cm *m QB) i j / (LB 0 j * LA 0 i + alpha))) *m QB^T in
  (QA *m diag_mx LA *m QA^T) *m X *m (QB *m diag_mx LB *m QB^T) + alpha *: X = Cm.
Proof.
move=> OA OB nz; set Y := \matrix_(i, j) _ => X.
have OA' := mulmx1C OA; have OB' := mulmx1C OB.
have E1 : (QA *m diag_mx LA *m QA^T) *m X *m (QB *m diag_mx LB *m QB^T) = QA *m (diag_mx LA *m Y *m diag_mx LB) *m QB^T.
  rewrite /X !mulmxA -[X in X *m Y](mulmxA (QA *m diag_mx LA)) OA mulmx1.
  by rewrite -[X in X *m diag_mx LB](mulmxA (QA *m diag_mx LA *m Y)) OB mulmx1.
rewrite E1 /X [X in _ + X]scalemxAl [alpha *: (QA *m Y)]scalemxAr -mulmxDl -mulmxDr.
have -> : diag_mx LA *m Y *m diag_mx LB + alpha *: Y = QA^T *m Cm *m QB.
  exact: diag_entry.
by rewrite !mulmxA OA' mul1mx -mulmxA OB' mulmx1.
Qed.

Lemma sylvester_form n m (A : sylv_arg R n) (B : sylv_arg R m) Cm alpha :
  sylvester eigh A B Cm alpha =
  optQ (sylv_decomp eigh A).2 *m (\matrix_(i, j) (((optQ (sylv_decomp eigh A).2)^T *m Cm *m optQ (sylv_decomp eigh B).2) i j
     / ((sylv_decomp eigh B).1 0 j * (sylv_decomp eigh A).1 0 i + alpha))) *m (optQ (sylv_decomp eigh B).2)^T.
Proof.
rewrite /sylvester; case: (sylv_decomp eigh A) => LA [QA|]; case: (sylv_decomp eigh B) => LB [QB|] //=;
by rewrite ?trmx1 ?mul1mx ?mulmx1.
Qed.

(** The matrix that the decomposition stands for. *)
Definition dmat n (x : sylv_arg R n) : 'M[R]_n :=
  let d := sylv_decomp eigh x in optQ d.2 *m diag_mx d.1 *m (optQ d.2)^T.

Definition orth n (x : sylv_arg R n) : Prop := (optQ (sylv_decomp eigh x).2)^T *m optQ (sylv_decomp eigh x).2 = 1%:M.

Lemma unique_nonzero n m (A : sylv_arg R n) (B : sylv_arg R m) alpha : orth A -> orth B ->
  (forall X : 'M[R]_(n, m), dmat A *m X *m dmat B + alpha *: X = 0 -> X = 0) ->
  forall i j, (sylv_decomp eigh B).1 0 j * (sylv_decomp eigh A).1 0 i + alpha != 0.
Proof.
move=> OA OB U i j; apply/eqP => Z.
rewrite /orth in OA OB; rewrite /dmat in U.
move: (sylv_decomp eigh A) (sylv_decomp eigh B) OA OB U Z => [LA QA] [LB QB] /=; set PA := optQ QA; set PB := optQ QB => OA OB U Z.
pose X := PA *m delta_mx i j *m PB^T.
have OA' := mulmx1C OA; have OB' := mulmx1C OB.
have : X = 0.
  apply: U; rewrite /X !mulmxA -[X in X *m delta_mx i j](mulmxA (PA *m diag_mx LA)) OA mulmx1.
  rewrite -[X in X *m diag_mx LB](mulmxA (PA *m diag_mx LA *m delta_mx i j)) OB mulmx1.
  rewrite -[PA *m diag_mx LA *m _]mulmxA -[PA *m _ *m diag_mx LB]mulmxA.
  rewrite [X in _ + X]scalemxAl [alpha *: (PA *m _)]scalemxAr -mulmxDl -mulmxDr.
  have -> : diag_mx LA *m delta_mx i j *m diag_mx LB + alpha *: delta_mx i j = 0.
    apply/matrixP => k l; rewrite mul_diag_mx mul_mx_diag !mxE.
    case: (altP (k =P i)) => [->|_]; case: (altP (l =P j)) => [->|_] /=; rewrite ?mulr1 ?mulr0 ?mul0r ?addr0 //.
    by rewrite mulrC.
  by rewrite mulmx0 mul0mx.
move=> /(congr1 (fun Y => PA^T *m Y *m PB)); rewrite /X mulmx0 mul0mx !mulmxA OA mul1mx -mulmxA OB mulmx1 => /matrixP /(_ i j).
by rewrite !mxE !eqxx => /eqP; rewrite oner_eq0.
Qed.

Lemma sylvester_dmat n m (A : sylv_arg R n) (B : sylv_arg R m) Cm alpha : orth A -> orth B ->
  (forall X : 'M[R]_(n, m), dmat A *m X *m dmat B + alpha *: X = 0 -> X = 0) ->
  dmat A *m sylvester eigh A B Cm alpha *m dmat B + alpha *: sylvester eigh A B Cm alpha = Cm.
Proof.
move=> OA OB U; rewrite sylvester_form; apply: sylv_core => //; exact: unique_nonzero.
Qed.

Lemma psd_eig n (A : 'M[R]_n) L Q : eigen_decomposition A L Q -> psd A -> forall i, 0 <= L 0 i.
Proof.
move=> [O E] P i; have := P (row i Q^T); rewrite E.
rewrite -tr_col trmxK.
have -> : (col i Q)^T *m (Q *m diag_mx L *m Q^T) *m col i Q = delta_mx 0 i *m diag_mx L *m delta_mx i 0.
  rewrite colE trmx_mul trmx_delta !mulmxA.
  rewrite -[delta_mx 0 i *m Q^T *m Q]mulmxA O mulmx1.
  by rewrite -[delta_mx 0 i *m diag_mx L *m Q^T *m Q]mulmxA O mulmx1.
rewrite -rowE -colE !mxE eqxx mulr1n //.
Qed.

Lemma map_norm_id n (L : 'rV[R]_n) : (forall i, 0 <= L 0 i) -> map_mx Num.norm L = L.
Proof. move=> H; apply/rowP => i; by rewrite mxE ger0_norm. Qed.
End Sylvester.
