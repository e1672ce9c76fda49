(** Properties C21, C22, C23 and C24. *)
From mathcomp Require Import all_ssreflect all_algebra.
From mathcomp Require Import algC.
From Verif Require Import LinSolveModel LinSolveSpec LinSolveProofs.
Set Implicit Arguments.
Unset Strict Implicit.
Unset Printing Implicit Defensive.
Import Order.TTheory GRing.Theory Num.Theory.
Local Open Scope ring_scope.

(** C21 *)
Theorem C21_solvedbi_sm (C : numClosedFieldType) M (ah b : 'I_M -> C) (rho : C) c :
  0 < rho -> c = None \/ c = Some (solvedbi_sm_c ah (fun m => (ah m)^*) rho) ->
  block_system (fun=> rho) [:: ah] (solvedbi_sm ah rho b c) b /\
  forall x, block_system (fun=> rho) [:: ah] x b -> x =1 solvedbi_sm ah rho b c.
Proof.
move=> Hr Hc.
have -> : solvedbi_sm ah rho b c = solvedbi_sm ah rho b None by case: Hc => ->.
have H : op (fun=> rho) [:: ah] (solvedbi_sm ah rho b None) =1 b.
  by move=> m; rewrite (eq_op _ _ (solvedbi_dbd _ _ Hr)) solvedbd_ok.
split; first exact/op_system.
by move=> x Hx; apply: (op_unique _ Hx H).
Qed.
Print Assumptions C21_solvedbi_sm.

Theorem C21_solvedbd_sm (C : numClosedFieldType) M (ah d b : 'I_M -> C) c :
  (forall m, 0 < d m) -> c = None \/ c = Some (solvedbd_sm_c ah (fun m => (ah m)^*) d) ->
  block_system d [:: ah] (solvedbd_sm ah d b c) b /\
  forall x, block_system d [:: ah] x b -> x =1 solvedbd_sm ah d b c.
Proof.
move=> Hd Hc.
have -> : solvedbd_sm ah d b c = solvedbd_sm ah d b None by case: Hc => ->.
have H : op d [:: ah] (solvedbd_sm ah d b None) =1 b by apply: solvedbd_ok.
split; first exact/op_system.
by move=> x Hx; apply: (op_unique Hd Hx H).
Qed.
Print Assumptions C21_solvedbd_sm.

Example C21_example :
  let ah := fun m : 'I_2 => if m == 0 then 'i else (2%:R : algC) in
  let b := fun m : 'I_2 => if m == 0 then 6%:R else (0 : algC) in
  solvedbi_sm ah 1 b None 0 = 5%:R /\ solvedbi_sm ah 1 b None 1 = - (2%:R * 'i).
Proof.
rewrite /solvedbi_sm /solvedbi_sm_c /inner !big_ord_recl !big_ord0 /= !addr0 !mulr0 !addr0.
have E : 'i * 'i^* + 2%:R * (2%:R : algC)^* + 1 = 6%:R.
  by rewrite -normCK normCi expr1n conjC_nat -natrM -mulrS -mulrSr.
rewrite E conjCi conjC_nat divfK ?pnatr_eq0 // !divr1; split; last by rewrite sub0r.
by rewrite mulNr -expr2 sqrCi opprK mulrSr addrK.
Qed.

(** C22: any number of blocks, by induction over the blocks. *)
Theorem C22_solvemdbi_ism (C : numClosedFieldType) M (ah0 : 'I_M -> C) (ahs : seq ('I_M -> C)) (rho : C) b :
  0 < rho ->
  block_system (fun=> rho) (ah0 :: ahs) (solvemdbi_ism ah0 ahs rho b) b /\
  forall x, block_system (fun=> rho) (ah0 :: ahs) x b -> x =1 solvemdbi_ism ah0 ahs rho b.
Proof.
move=> Hr; have H := solvemdbi_ism_ok ah0 ahs b Hr.
split; first exact/op_system.
by move=> x Hx; apply: (op_unique _ Hx H).
Qed.
Print Assumptions C22_solvemdbi_ism.

Theorem C22_solvemdbi_rsm (C : numClosedFieldType) M (ahs : seq ('I_M -> C)) (rho : C) b :
  0 < rho ->
  block_system (fun=> rho) ahs (solvemdbi_rsm ahs rho b) b /\
  forall x, block_system (fun=> rho) ahs x b -> x =1 solvemdbi_rsm ahs rho b.
Proof.
move=> Hr; have H := rsm_ok ahs Hr b.
split; first exact/op_system.
by move=> x Hx; apply: (op_unique _ Hx H).
Qed.
Print Assumptions C22_solvemdbi_rsm.

Theorem C22_methods_agree (C : numClosedFieldType) M (ah0 : 'I_M -> C) (ahs : seq ('I_M -> C)) (rho : C) b :
  0 < rho -> solvemdbi_ism ah0 ahs rho b =1 solvemdbi_rsm (ah0 :: ahs) rho b.
Proof.
move=> Hr; apply: (proj2 (C22_solvemdbi_rsm (ah0 :: ahs) b Hr)).
exact: (proj1 (C22_solvemdbi_ism ah0 ahs b Hr)).
Qed.
Print Assumptions C22_methods_agree.

(** Two blocks of length one: (1 + 1 + 4) x = 12. *)
Example C22_example :
  solvemdbi_ism (fun _ : 'I_1 => 1) [:: fun _ : 'I_1 => (2%:R : algC)] 1 (fun=> 12%:R) 0 = 2%:R.
Proof.
have H := proj1 (C22_solvemdbi_ism (fun _ : 'I_1 => 1) [:: fun _ : 'I_1 => (2%:R : algC)] (fun=> 12%:R) (@ltr01 _)) 0.
move: H; set x := solvemdbi_ism _ _ _ _; rewrite !big_cons big_nil addr0 !big_ord_recl !big_ord0 /= !addr0.
rewrite conjC1 conjC_nat !mul1r mulrA -natrM => H.
apply: (@mulfI _ 6%:R); first by rewrite pnatr_eq0.
rewrite -natrM -H; rewrite mulr_natl mulr_natl.
by rewrite addrA -mulr2n -mulrnDr.
Qed.

(** C23: the contract of the external factorisation is an hypothesis; invertibility of the factorised matrix is needed in
    a general field and is automatic for rho > 0 in an ordered field. *)
Theorem C23_ATAI (F : fieldType) solve tr n m k (A : 'M[F]_(n, m)) (rho : F) (b : 'M[F]_(m, k)) :
  solves solve -> rho != 0 -> ((m <= n)%N -> A^T *m A + rho%:M \in unitmx) -> ((n < m)%N -> A *m A^T + rho%:M \in unitmx) ->
  (A^T *m A + rho%:M) *m solve_ATAI solve tr A rho b (factor_matrix A rho) = b.
Proof.
move=> Hs nz U1 U2; apply: atai_ok => //; rewrite /factored /factor_matrix; case: leqP => h; [exact: U1 | exact: U2].
Qed.
Print Assumptions C23_ATAI.

Theorem C23_AATI (F : fieldType) solve n m k (A : 'M[F]_(n, m)) (rho : F) (b : 'M[F]_(k, n)) :
  solves solve -> rho != 0 -> ((m <= n)%N -> A^T *m A + rho%:M \in unitmx) -> ((n < m)%N -> A *m A^T + rho%:M \in unitmx) ->
  solve_AATI solve A rho b (factor_matrix A rho) *m (A *m A^T + rho%:M) = b.
Proof.
move=> Hs nz U1 U2; apply: aati_ok => //; rewrite /factored /factor_matrix; case: leqP => h; [exact: U1 | exact: U2].
Qed.
Print Assumptions C23_AATI.

Theorem C23_positive_rho (R : realFieldType) solve tr n m k (A : 'M[R]_(n, m)) (rho : R) :
  solves solve -> 0 < rho ->
  (forall b : 'M[R]_(m, k), (A^T *m A + rho%:M) *m solve_ATAI solve tr A rho b (factor_matrix A rho) = b) /\
  (forall b : 'M[R]_(k, n), solve_AATI solve A rho b (factor_matrix A rho) *m (A *m A^T + rho%:M) = b).
Proof.
move=> Hs Hr; have nz : rho != 0 by rewrite lt0r_neq0.
split=> b; [apply: C23_ATAI | apply: C23_AATI] => // _; [exact: gram_unit | exact: gram_unit2 | exact: gram_unit | exact: gram_unit2].
Qed.
Print Assumptions C23_positive_rho.

(** A routine meeting the contract, and a wide matrix. *)
Definition inv_solve (F : fieldType) n k (G : 'M[F]_n) (tr : bool) (B : 'M[F]_(n, k)) : 'M[F]_(n, k) :=
  invmx (if tr then G^T else G) *m B.
Example C23_example :
  solves (@inv_solve [fieldType of rat]) /\
  let A := (\matrix_(i < 1, j < 2) (j%:R + 1)) : 'M[rat]_(1, 2) in
  (A^T *m A + 1%:M) *m solve_ATAI (@inv_solve [fieldType of rat]) true A 1 (const_mx 1 : 'M_(2, 1)) (factor_matrix A 1) = const_mx 1.
Proof.
have S : solves (@inv_solve [fieldType of rat]).
  move=> n k G tr B U; rewrite /inv_solve mulKVmx //; by case: tr => //; rewrite unitmx_tr.
split=> // A; exact: (proj1 (C23_positive_rho true 1 A S ltr01)).
Qed.

(** C24: exact for positive semi-definite full matrices, and for diagonal or eigen-decomposed arguments of any sign. *)
Definition sylv_matrix (R : realFieldType) n (x : sylv_arg R n) : 'M[R]_n :=
  match x with Eig L Q => Q *m diag_mx L *m Q^T | Diag d => diag_mx d | Full A => A end.
Definition sylv_admissible (R : realFieldType) (eigh : forall n, 'M[R]_n -> 'rV[R]_n * 'M[R]_n) n (x : sylv_arg R n) : Prop :=
  match x with
  | Eig L Q => Q^T *m Q = 1%:M
  | Diag d => True
  | Full A => eigen_decomposition A (eigh n A).1 (eigh n A).2
  end.
Definition uniquely_solvable (R : realFieldType) n m (A : 'M[R]_n) (B : 'M[R]_m) (alpha : R) : Prop :=
  forall X : 'M[R]_(n, m), A *m X *m B + alpha *: X = 0 -> X = 0.

Lemma admissible_orth (R : realFieldType) eigh n (x : sylv_arg R n) : sylv_admissible eigh x -> orth eigh x.
Proof. case: x => [L Q|d|A] //=; rewrite /orth /=; [by rewrite trmx1 mulmx1 | by case]. Qed.

Lemma psd_dmat (R : realFieldType) eigh n (x : sylv_arg R n) : sylv_admissible eigh x ->
  (if x is Full A then psd A else True) -> dmat eigh x = sylv_matrix x.
Proof.
case: x => [L Q|d|A] //=; first by move=> _ _; rewrite /dmat /= mul1mx trmx1 mulmx1.
move=> H P; rewrite /dmat /= map_norm_id; first by case: H => _ <-.
exact: (psd_eig H P).
Qed.

Theorem C24_sylvester_partial (R : realFieldType) eigh n m (A : sylv_arg R n) (B : sylv_arg R m) (C : 'M[R]_(n, m)) alpha :
  sylv_admissible eigh A -> sylv_admissible eigh B ->
  (if A is Full A' then psd A' else True) -> (if B is Full B' then psd B' else True) ->
  uniquely_solvable (sylv_matrix A) (sylv_matrix B) alpha ->
  let X := sylvester eigh A B C alpha in sylv_matrix A *m X *m sylv_matrix B + alpha *: X = C.
Proof.
move=> HA HB PA PB U X.
rewrite -(psd_dmat HA PA) -(psd_dmat HB PB); apply: sylvester_dmat; try exact: admissible_orth.
by rewrite (psd_dmat HA PA) (psd_dmat HB PB).
Qed.
Print Assumptions C24_sylvester_partial.

(** The full claim, for all symmetric matrices, is false: the eigenvalues are replaced by their absolute values. *)
Theorem C24_indefinite_refuted :
  exists (eigh : forall n, 'M[rat]_n -> 'rV[rat]_n * 'M[rat]_n) (A B C : 'M[rat]_2) (alpha : rat),
    [/\ sylv_admissible eigh (Full A), sylv_admissible eigh (Full B), uniquely_solvable A B alpha,
        A^T = A /\ B^T = B &
        let X := sylvester eigh (Full A) (Full B) C alpha in A *m X *m B + alpha *: X <> C].
Proof.
pose eigh := fun n (A : 'M[rat]_n) => ((\row_i A i i) : 'rV[rat]_n, (1%:M : 'M[rat]_n)).
have adm : forall c : rat, @sylv_admissible _ eigh 2 (Full c%:M).
  move=> c; split=> /=; first by rewrite trmx1 mulmx1.
  rewrite mul1mx trmx1 mulmx1 -diag_const_mx; congr diag_mx; apply/rowP => i; by rewrite !mxE eqxx.
have E : -1 + 2%:R = 1 :> rat by [].
exists eigh, (-1)%:M, 1%:M, 1%:M, 2%:R; split.
- exact: adm.
- exact: adm.
- by move=> X; rewrite mulmx1 mul_scalar_mx -scalerDl E scale1r.
- by rewrite !tr_scalar_mx.
- set X := sylvester _ _ _ _ _; rewrite /= mulmx1 mul_scalar_mx -scalerDl E scale1r => H.
  have : X 0 0 = 1 by rewrite H mxE eqxx.
  by rewrite /X /sylvester /= trmx1 !mul1mx !mulmx1 !mxE.
Qed.
Print Assumptions C24_indefinite_refuted.

(** What is computed in general: the solution for the matrices with absolute eigenvalues. *)
Theorem C24_sylvester_absolute (R : realFieldType) eigh n m (A : 'M[R]_n) (B : 'M[R]_m) (C : 'M[R]_(n, m)) alpha :
  sylv_admissible eigh (Full A) -> sylv_admissible eigh (Full B) ->
  let absm k (M : 'M[R]_k) := (eigh k M).2 *m diag_mx (map_mx Num.norm (eigh k M).1) *m (eigh k M).2^T in
  uniquely_solvable (absm n A) (absm m B) alpha ->
  let X := sylvester eigh (Full A) (Full B) C alpha in absm n A *m X *m absm m B + alpha *: X = C.
Proof.
move=> HA HB absm U X; apply: (@sylvester_dmat _ eigh _ _ (Full A) (Full B)) => //; exact: admissible_orth.
Qed.
Print Assumptions C24_sylvester_absolute.

Example C24_example :
  let eigh := fun n (A : 'M[rat]_n) => ((\row_i A i i) : 'rV[rat]_n, (1%:M : 'M[rat]_n)) in
  let A := 2%:M : 'M[rat]_2 in
  [/\ sylv_admissible eigh (Full A), psd A, uniquely_solvable A A 1 & sylvester eigh (Full A) (Full A) (const_mx 5%:R) 1 = const_mx 1].
Proof.
split.
- split=> /=; first by rewrite trmx1 mulmx1.
  rewrite mul1mx trmx1 mulmx1 -diag_const_mx; congr diag_mx; apply/rowP => i; by rewrite !mxE eqxx.
- by move=> v; rewrite mul_mx_scalar -scalemxAl mxE mulr_ge0 // quad_ge0.
- move=> X; rewrite mul_scalar_mx mul_mx_scalar scalerA scale1r -[X in _ + X]scale1r -scalerDl => /eqP.
  by rewrite scaler_eq0 => /orP[|/eqP].
- rewrite /sylvester /= trmx1 !mul1mx !mulmx1; apply/matrixP => i j; rewrite !mxE !eqxx /=.
  by [].
Qed.
