Require Import List Arith Reals Bool String.
Require Import Verif.PiniModel Verif.PiniSpec.
Import ListNotations.
Local Open Scope string_scope.

Lemma assign_same g nm v : assign g nm v nm = Some v.
Proof. unfold assign. rewrite String.eqb_refl. reflexivity. Qed.
Lemma assign_other g nm v k : k <> nm -> assign g nm v k = g k.
Proof. intros H. unfold assign. destruct (String.eqb_spec k nm); [contradiction|reflexivity]. Qed.

Lemma construct_var q c g : construct c g (name_of q) =
  match option_of q c with None => Some (mkArr (shape_of q c) (fun _ => 0%R)) | Some _ => g (name_of q) end.
Proof.
  unfold construct, set_U1, set_U0, set_Y1, set_Y0, init_mpraw, mpraw_as_np.
  destruct q, c as [s0 s1 [y0|] [y1|] [u0|] [u1|]]; reflexivity.
Qed.
Lemma overwrite_same nm f g : overwrite nm f g nm = match g nm with Some a => Some (mkArr (shape a) f) | None => None end.
Proof. unfold overwrite. destruct (g nm) as [a|] eqn:E; [apply assign_same|exact E]. Qed.
Lemma overwrite_other nm f g k : k <> nm -> overwrite nm f g k = g k.
Proof. intros H. unfold overwrite. destruct (g nm); [apply assign_other; exact H|reflexivity]. Qed.
Lemma solve_var q f g : happens (Solve f) g (name_of q) = match g (name_of q) with Some a => Some (mkArr (shape a) (f (name_of q))) | None => None end.
Proof.
  cbn [happens]. destruct q; cbn [name_of]; repeat (first [rewrite overwrite_same|rewrite overwrite_other by discriminate]); reflexivity.
Qed.

Lemma history_snoc es e g : history (es ++ [e]) g = happens e (history es g).
Proof. revert g. induction es as [|a es IH]; intros g; [reflexivity|]. cbn [app history]. apply IH. Qed.
Lemma history_var q es : history es module_loaded (name_of q) = left_behind q (rev es).
Proof.
  induction es as [|e es IH] using rev_ind; [reflexivity|]. rewrite history_snoc, rev_app_distr. cbn [rev app left_behind].
  destruct e as [c|f].
  - cbn [happens]. rewrite construct_var. destruct (option_of q c); [exact IH|reflexivity].
  - rewrite solve_var, IH. reflexivity.
Qed.
