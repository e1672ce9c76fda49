(** Multi-indices, C-order flattening, dense and strided arrays: a small library shared by the models of array code. *)
Require Import List Arith Lia ZArith FinFun.
Import ListNotations.
Local Open Scope nat_scope.

(** Number of elements of a shape. *)
Fixpoint prod (s : list nat) : nat := match s with [] => 1 | n :: r => n * prod r end.

(** [idx] is a valid index for [s]. *)
Definition inb (s idx : list nat) : Prop := Forall2 (fun i n => i < n) idx s.

(** Flat position in C order, and its inverse. *)
Fixpoint ravel (s idx : list nat) : nat :=
  match s, idx with
  | n :: s', i :: idx' => i * prod s' + ravel s' idx'
  | _, _ => 0
  end.
Fixpoint unravel (s : list nat) (k : nat) : list nat :=
  match s with
  | [] => []
  | n :: s' => k / prod s' :: unravel s' (k mod prod s')
  end.

(** np.ndindex: all indices in C order. *)
Fixpoint indices (s : list nat) : list (list nat) :=
  match s with
  | [] => [[]]
  | n :: s' => flat_map (fun i => map (cons i) (indices s')) (seq 0 n)
  end.

(** Element-wise operations on tuples of equal length. *)
Fixpoint map2 {A B C} (f : A -> B -> C) (x : list A) (y : list B) : list C :=
  match x, y with a :: x', b :: y' => f a b :: map2 f x' y' | _, _ => [] end.

(** A dense array: shape and elements. *)
Record arr (A : Type) := mkarr { shape : list nat; get : list nat -> A }.
Arguments mkarr {A}. Arguments shape {A}. Arguments get {A}.

(** np.reshape (C order). *)
Definition reshape {A} (x : arr A) (s : list nat) : arr A :=
  mkarr s (fun idx => get x (unravel (shape x) (ravel s idx))).

(** A strided array: a view of memory with a base address and one stride per axis (strides may be any integers). *)
Record sarr (A : Type) := mksarr { sshape : list nat; strides : list Z; base : Z; mem : Z -> A }.
Arguments mksarr {A}. Arguments sshape {A}. Arguments strides {A}. Arguments base {A}. Arguments mem {A}.

Fixpoint offset (st : list Z) (idx : list nat) : Z :=
  match st, idx with s :: st', i :: idx' => (Z.of_nat i * s + offset st' idx')%Z | _, _ => 0%Z end.
Definition addr {A} (x : sarr A) (idx : list nat) : Z := (base x + offset (strides x) idx)%Z.
Definition sget {A} (x : sarr A) (idx : list nat) : A := mem x (addr x idx).

(** np.lib.stride_tricks.as_strided: same memory and base, new shape and strides. *)
Definition as_strided {A} (x : sarr A) (s : list nat) (st : list Z) : sarr A := mksarr s st (base x) (mem x).

(** ** Lemmas *)
Lemma inb_nil : inb [] []. Proof. constructor. Qed.
Lemma inb_cons n s i idx : inb (n :: s) (i :: idx) <-> i < n /\ inb s idx.
Proof. split; [intros H; inversion H; auto | intros [? ?]; constructor; auto]. Qed.
Lemma inb_length s idx : inb s idx -> length idx = length s.
Proof. induction 1; simpl; congruence. Qed.
Lemma inb_prod_pos s idx : inb s idx -> 0 < prod s.
Proof. induction 1; simpl; [lia|]. nia. Qed.

Lemma inb_app s1 s2 i j : length i = length s1 -> (inb (s1 ++ s2) (i ++ j) <-> inb s1 i /\ inb s2 j).
Proof.
  revert i. induction s1 as [|n s1 IH]; intros [|a i] H; simpl in *; try discriminate.
  - split; [intros K; split; [constructor|exact K] | intros [_ K]; exact K].
  - rewrite !inb_cons. rewrite IH by lia. tauto.
Qed.

Lemma inb_app_inv s1 s2 idx : inb (s1 ++ s2) idx -> exists i j, idx = i ++ j /\ inb s1 i /\ inb s2 j.
Proof. intros H. apply Forall2_app_inv_r in H. destruct H as (i & j & H1 & H2 & ->). exists i, j. auto. Qed.

Lemma prod_app s1 s2 : prod (s1 ++ s2) = prod s1 * prod s2.
Proof. induction s1; simpl; [lia|]. rewrite IHs1. lia. Qed.

Lemma ravel_lt s idx : inb s idx -> ravel s idx < prod s.
Proof. induction 1 as [|i n idx s H _ IH]; simpl; [lia|]. nia. Qed.

Lemma unravel_ravel s idx : inb s idx -> unravel s (ravel s idx) = idx.
Proof.
  induction 1 as [|i n idx s H Hs IH]; simpl; [reflexivity|].
  assert (P : ravel s idx < prod s) by (apply ravel_lt; exact Hs).
  rewrite Nat.div_add_l by lia. rewrite Nat.div_small by exact P.
  rewrite (Nat.add_comm (i * prod s)), Nat.mod_add by lia. rewrite Nat.mod_small by exact P. rewrite IH. f_equal. lia.
Qed.

Lemma unravel_inb s k : k < prod s -> inb s (unravel s k).
Proof.
  revert k. induction s as [|n s IH]; intros k H; simpl in *; [constructor|].
  assert (0 < prod s) by nia. apply inb_cons. split.
  - apply Nat.div_lt_upper_bound; lia.
  - apply IH. apply Nat.mod_upper_bound. lia.
Qed.

Lemma ravel_unravel s k : k < prod s -> ravel s (unravel s k) = k.
Proof.
  revert k. induction s as [|n s IH]; intros k H; simpl in *; [lia|].
  assert (0 < prod s) by nia. rewrite IH by (apply Nat.mod_upper_bound; lia).
  rewrite (Nat.div_mod k (prod s)) at 3 by lia. lia.
Qed.

Lemma ravel_app s1 s2 i j : length i = length s1 -> ravel (s1 ++ s2) (i ++ j) = ravel s1 i * prod s2 + ravel s2 j.
Proof.
  revert i. induction s1 as [|n s1 IH]; intros [|a i] H; simpl in *; try discriminate; [reflexivity|].
  rewrite IH by lia. rewrite prod_app. lia.
Qed.

Lemma in_indices s idx : In idx (indices s) <-> inb s idx.
Proof.
  revert idx. induction s as [|n s IH]; intros idx; simpl.
  - split; [intros [<-|[]]; constructor | intros H; inversion H; auto].
  - rewrite in_flat_map. split.
    + intros (i & Hi & H). apply in_map_iff in H. destruct H as (r & <- & Hr). apply in_seq in Hi.
      apply inb_cons. split; [lia|]. apply IH. exact Hr.
    + intros H. destruct idx as [|i r]; [inversion H|]. apply inb_cons in H. destruct H as [H1 H2].
      exists i. split; [apply in_seq; lia|]. apply in_map. apply IH. exact H2.
Qed.

Lemma NoDup_app_iff_aux {A} (l1 l2 : list A) : NoDup l1 -> NoDup l2 -> (forall x, In x l1 -> In x l2 -> False) -> NoDup (l1 ++ l2).
Proof.
  induction 1 as [|x l1 H1 H2 IH]; simpl; intros H H3; [exact H|].
  constructor; [intros Hin; apply in_app_or in Hin; destruct Hin as [Hin|Hin]; [contradiction|apply (H3 x); [left; reflexivity|exact Hin]]|].
  apply IH; [exact H|]. intros y Hy1 Hy2. apply (H3 y); [right; exact Hy1|exact Hy2].
Qed.

Lemma NoDup_indices s : NoDup (indices s).
Proof.
  induction s as [|n s IH]; simpl; [constructor; [intros []|constructor]|].
  generalize 0 as a. induction n as [|n IHn]; intros a; simpl; [constructor|].
  apply NoDup_app_iff_aux.
  - apply FinFun.Injective_map_NoDup; [intros x y E; injection E; auto|exact IH].
  - apply IHn.
  - intros x H1 H2. apply in_map_iff in H1. destruct H1 as (r & <- & _).
    apply in_flat_map in H2. destruct H2 as (i & Hi & H2). apply in_map_iff in H2. destruct H2 as (r' & E & _).
    injection E as -> _. apply in_seq in Hi. lia.
Qed.
