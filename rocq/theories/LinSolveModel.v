(** Model of the linear solvers of sporco/linalg.py over exact fields: solvedbi_sm (232-273), solvedbd_sm (301-342),
    solvemdbi_ism (370-444), solvemdbi_rsm (448-511), lu_solve_* and cho_solve_* (583-811), solve_symmetric_sylvester
    (815-879).  The diagonal-block solvers act independently on each DFT frequency; one frequency is modelled. *)
From mathcomp Require Import all_ssreflect all_algebra.
Set Implicit Arguments.
Unset Strict Implicit.
Unset Printing Implicit Defensive.
Import GRing.Theory Num.Theory.
Local Open Scope ring_scope.

Section DiagBlock.
Variables (C : numClosedFieldType) (M : nat).
Implicit Types (ah a b c d : 'I_M -> C).

(** inner (linalg.py 41-88) over the filter axis: sum of products, no conjugation. *)
Definition inner (x y : 'I_M -> C) : C := \sum_(m < M) x m * y m.

(** solvedbi_sm_c (line 297). *)
Definition solvedbi_sm_c ah a (rho : C) : 'I_M -> C := fun m => ah m / (inner ah a + rho).

(** solvedbi_sm (lines 266-273). *)
Definition solvedbi_sm ah (rho : C) b (cache : option ('I_M -> C)) : 'I_M -> C :=
  let a := fun m => (ah m)^* in
  let c := if cache is Some c then c else solvedbi_sm_c ah a rho in
  fun m => (b m - a m * inner c b) / rho.

(** solvedbd_sm_c (line 366). *)
Definition solvedbd_sm_c ah a d : 'I_M -> C :=
  fun m => (ah m / d m) / (inner ah (fun i => a i / d i) + 1).

(** solvedbd_sm (lines 335-342). *)
Definition solvedbd_sm ah d b (cache : option ('I_M -> C)) : 'I_M -> C :=
  let a := fun m => (ah m)^* in
  let c := if cache is Some c then c else solvedbd_sm_c ah a d in
  fun m => (b m - a m * inner c b) / d m.

(** One update x - gamma * inner(ah, x) / delta (lines 434-435 and 441-442). *)
Definition sm_update ah (gamma : 'I_M -> C) (delta : C) (x : 'I_M -> C) : 'I_M -> C :=
  fun m => x m - gamma m * inner ah x / delta.

(** The inner loop over l (lines 439-442): [hist] lists (ah_l, gamma_l, delta_l) for l = 0, ..., k. *)
Definition ism_inner (hist : seq (('I_M -> C) * ('I_M -> C) * C)) (alpha : 'I_M -> C) : 'I_M -> C :=
  foldl (fun al h => sm_update h.1.1 h.1.2 h.2 al) alpha hist.

(** The outer loop over k (lines 428-442). [rest] holds the blocks ah_k, ah_{k+1}, ... not yet processed; [alpha] is the
    content of the alpha buffer. *)
Fixpoint ism_loop (rho : C) (hist : seq (('I_M -> C) * ('I_M -> C) * C)) (alpha beta : 'I_M -> C)
    (rest : seq ('I_M -> C)) : 'I_M -> C :=
  if rest is ah :: rest' then
    let gamma := alpha in
    let delta := 1 + inner ah gamma in
    let beta' := sm_update ah gamma delta beta in
    let hist' := rcons hist (ah, gamma, delta) in
    let alpha' := if rest' is ah1 :: _ then ism_inner hist' (fun m => (ah1 m)^* / rho) else alpha in
    ism_loop rho hist' alpha' beta' rest'
  else beta.

(** solvemdbi_ism (lines 417-444); the code takes block 0 unconditionally, so there is at least one block. *)
Definition solvemdbi_ism (ah0 : 'I_M -> C) (ahs : seq ('I_M -> C)) (rho : C) b : 'I_M -> C :=
  ism_loop rho [::] (fun m => (ah0 m)^* / rho) (fun m => b m / rho) (ah0 :: ahs).

(** solvemdbi_rsm (lines 492-511): the inverse is built explicitly. *)
Definition rsm_step (Ainv : 'M[C]_M) ah : 'M[C]_M :=
  let a := fun m => (ah m)^* in
  let Aia := fun m => inner (fun n => Ainv m n) a in
  let ahAia := 1 + inner ah Aia in
  let ahAi := fun n => inner ah (fun m => Ainv m n) in
  \matrix_(m, n) (Ainv m n - Aia m * ahAi n / ahAia).
Definition solvemdbi_rsm (ahs : seq ('I_M -> C)) (rho : C) b : 'I_M -> C :=
  let Ainv := foldl rsm_step (\matrix_(m, n) ((m == n)%:R / rho)) ahs in
  fun m => \sum_(n < M) Ainv m n * b n.
End DiagBlock.

Section Factored.
Variable F : fieldType.
(** scipy.linalg.lu_factor and lu_solve (or cho_factor and cho_solve) as an argument: [solve G trans B] solves with the
    factorised matrix [G], transposed if [trans]. *)
Variable solve : forall n k, 'M[F]_n -> bool -> 'M[F]_(n, k) -> 'M[F]_(n, k).

(** The matrix that lu_factor (607-618) and cho_factor (724-735) factorise. *)
Definition factor_matrix n m (A : 'M[F]_(n, m)) (rho : F) : 'M[F]_m + 'M[F]_n :=
  if (m <= n)%N then inl (A^T *m A + rho%:M) else inr (A *m A^T + rho%:M).

(** lu_solve_ATAI (650-656) and cho_solve_ATAI (767-773): [tr] is the trans argument used in the wide case, which is 1
    in the lu version and absent in the cho version. *)
Definition solve_ATAI (tr : bool) n m k (A : 'M[F]_(n, m)) (rho : F) (b : 'M[F]_(m, k)) (f : 'M[F]_m + 'M[F]_n) : 'M[F]_(m, k) :=
  if (m <= n)%N then
    match f with inl G => solve G false b | inr _ => b end
  else
    match f with inr G => rho^-1 *: (b - A^T *m solve G tr (A *m b)) | inl _ => b end.

(** lu_solve_AATI (688-694) and cho_solve_AATI (805-811). *)
Definition solve_AATI n m k (A : 'M[F]_(n, m)) (rho : F) (b : 'M[F]_(k, n)) (f : 'M[F]_m + 'M[F]_n) : 'M[F]_(k, n) :=
  if (m <= n)%N then
    match f with inl G => rho^-1 *: (b - (solve G false (b *m A)^T)^T *m A^T) | inr _ => b end
  else
    match f with inr G => (solve G false b^T)^T | inl _ => b end.
End Factored.

Section Sylvester.
Variable R : realFieldType.
(** numpy.linalg.eigh as an argument. *)
Variable eigh : forall n, 'M[R]_n -> 'rV[R]_n * 'M[R]_n.

(** The forms in which the A and B arguments are accepted (846-867): an eigen-decomposition, a vector standing for a
    diagonal matrix, or a matrix. *)
Inductive sylv_arg n := Eig of 'rV[R]_n & 'M[R]_n | Diag of 'rV[R]_n | Full of 'M[R]_n.

(** Lines 846-856 (and 857-867): eigenvalues and optional eigenvectors. *)
Definition sylv_decomp n (x : sylv_arg n) : 'rV[R]_n * option 'M[R]_n :=
  match x with
  | Eig L Q => (L, Some Q)
  | Diag d => (d, None)
  | Full A => let LQ := eigh A in (map_mx Num.norm LQ.1, Some LQ.2)
  end.

(** solve_symmetric_sylvester (869-879). *)
Definition sylvester n m (A : sylv_arg n) (B : sylv_arg m) (C : 'M[R]_(n, m)) (alpha : R) : 'M[R]_(n, m) :=
  let: (LA, QA) := sylv_decomp A in
  let: (LB, QB) := sylv_decomp B in
  let T := if QA is Some Q then Q^T *m C else C in
  let T := if QB is Some Q then T *m Q else T in
  let X := \matrix_(i, j) (T i j / (LB 0 j * LA 0 i + alpha)) in
  let X := if QA is Some Q then Q *m X else X in
  if QB is Some Q then X *m Q^T else X.
End Sylvester.
