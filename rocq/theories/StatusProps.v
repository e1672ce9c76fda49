(** C53: header, separator and status lines have the same length. *)
Require Import List Arith Bool Lia Decimal DecimalNat.
Require Import Verif.StatusModel.
Import ListNotations.

(** Specification: a plain conversion, and what counts as its width. *)
Inductive plain : text -> nat -> option uint * nat -> Prop :=
| plain_noprec (lf : bool) (w : uint) (c : nat) : w <> Nil -> is_letter c = true ->
    plain (pct :: (if lf then [dash] else []) ++ show_uint w ++ [c]) (Nat.of_uint w) (None, c)
| plain_prec (lf : bool) (w p : uint) (c : nat) : w <> Nil -> is_letter c = true ->
    plain (pct :: (if lf then [dash] else []) ++ show_uint w ++ [dot] ++ show_uint p ++ [c]) (Nat.of_uint w) (Some p, c).

Lemma take_show u r : (match r with [] => True | c :: _ => digit c = None end) -> take_digits (show_uint u ++ r) = (u, r).
Proof.
  intros H. induction u; simpl; try (rewrite IHu; reflexivity). destruct r as [|c r]; [reflexivity|]. simpl. rewrite H. reflexivity.
Qed.
Lemma letter_nodigit c : is_letter c = true -> digit c = None /\ (c =? dot) = false /\ (c =? pct) = false.
Proof.
  unfold is_letter, digit, dot, pct. intros H. apply andb_prop in H as [H1 H2]. apply Nat.leb_le in H1, H2.
  repeat (match goal with |- context [c =? ?k] => replace (c =? k) with false by (symmetry; apply Nat.eqb_neq; lia) end). auto.
Qed.
Lemma dash_show u r : u <> Nil -> take_dash (show_uint u ++ r) = (false, show_uint u ++ r).
Proof. destruct u; [congruence|..]; reflexivity. Qed.
Lemma dash_opt (lf : bool) u r : u <> Nil -> take_dash ((if lf then [dash] else []) ++ show_uint u ++ r) = (lf, show_uint u ++ r).
Proof. intros H. destruct lf; [reflexivity|]. simpl app. apply dash_show, H. Qed.
Lemma plain_match f w c : plain f w c -> match_width f = Some w.
Proof.
  intros [lf u k Hu Hk|lf u p k Hu Hk]; unfold match_width; change (pct =? pct) with true; cbv iota; rewrite dash_opt by exact Hu; cbn [snd]; rewrite take_show; cbn [fst].
  - destruct u; try reflexivity; congruence.
  - apply letter_nodigit, Hk.
  - destruct u; try reflexivity; congruence.
  - reflexivity.
Qed.
Lemma plain_spec f w c rest : plain f w c -> exists (lf : bool) f', f = pct :: f' /\ spec (f' ++ rest) = Some (lf, w, c, rest).
Proof.
  intros [lf u k Hu Hk|lf u p k Hu Hk]; exists lf; eexists; (split; [reflexivity|]); unfold spec; repeat rewrite <- app_assoc; rewrite dash_opt by exact Hu.
  - rewrite take_show by (cbn [app]; apply letter_nodigit, Hk). cbn [app]. destruct (letter_nodigit k Hk) as (_ & E & _). cbv beta iota. change ([k] ++ rest) with (k :: rest). cbv iota. rewrite E, Hk. reflexivity.
  - rewrite take_show by reflexivity. cbv beta iota. change ([dot] ++ show_uint p ++ [k] ++ rest) with (dot :: show_uint p ++ (k :: rest)). cbv iota. change (dot =? dot) with true. cbv iota. rewrite take_show by (apply letter_nodigit, Hk). rewrite Hk. reflexivity.
Qed.
Lemma to_uint_nonnil n : Nat.to_uint n <> Nil.
Proof. intros H. assert (E : Nat.to_uint n = Nat.to_uint (Nat.of_uint (Nat.to_uint n))) by (rewrite Unsigned.of_to; reflexivity). rewrite Unsigned.to_of in E. rewrite H in E. discriminate. Qed.
Lemma default_plain fmtmap f0 fd fp idx l : (forall l' f, fmtmap l' = Some f -> exists w c, plain f w c) -> exists w c, plain (fldfmt fmtmap f0 fd fp idx l) w c.
Proof.
  intros H. unfold fldfmt. destruct (fmtmap l) as [f|] eqn:E; [exact (H l f E)|]. destruct (idx =? 0).
  - eexists _, _. apply (plain_noprec false (Nat.to_uint f0) ch_d); [apply to_uint_nonnil|reflexivity].
  - eexists _, _. apply (plain_prec false (Nat.to_uint (fp + fd)) (Nat.to_uint fp) ch_e); [apply to_uint_nonnil|reflexivity].
Qed.

Lemma rjust_len w t : length (rjust w t) = Nat.max w (length t).
Proof. unfold rjust. rewrite app_length, repeat_length. lia. Qed.
Lemma ljust_len w t : length (ljust w t) = Nat.max w (length t).
Proof. unfold ljust. rewrite app_length, repeat_length. lia. Qed.

Definition total (l : list nat) : nat := fold_right Nat.add 0 l.
Lemma join_len l : length (join l) = total (map (@length nat) l) + 2 * (length l - 1).
Proof.
  induction l as [|a l IH]; [reflexivity|]. destruct l as [|b l]; [simpl; lia|].
  change (join (a :: b :: l)) with (a ++ [blank; blank] ++ join (b :: l)). rewrite !app_length, IH. cbn [map total fold_right length]. unfold total. simpl. lia.
Qed.

Lemma fldfmts_nth fmtmap f0 fd fp hdr : forall idx i, i < length hdr -> nth i (fldfmts fmtmap f0 fd fp idx hdr) [] = fldfmt fmtmap f0 fd fp (idx + i) (nth i hdr []).
Proof.
  induction hdr as [|l hdr IH]; intros idx i Hi; simpl in Hi; [lia|]. destruct i as [|i]; [simpl; f_equal; lia|]. cbn [fldfmts nth]. rewrite IH by lia. f_equal. lia.
Qed.
Lemma F2_nth {A B} (P : A -> B -> Prop) l l' da db : Forall2 P l l' -> forall i, i < length l -> P (nth i l da) (nth i l' db).
Proof. induction 1; intros [|i] Hi; simpl in *; try lia; [assumption|]. apply IHForall2. lia. Qed.

Section line.
Variable V : Type.
Variable body : option uint * nat -> V -> text.
Lemma fuel_more fuel : forall fmt vs t, printf_fuel body fuel fmt vs = Some t -> forall k, printf_fuel body (fuel + k) fmt vs = Some t.
Proof.
  induction fuel as [|fl IH]; intros fmt vs t H k; [discriminate|]. cbn [plus printf_fuel] in *. destruct fmt as [|c r]; [exact H|].
  destruct (c =? pct).
  - destruct (spec r) as [[[[lf w] conv] r']|]; [|discriminate]. destruct vs as [|v vs]; [discriminate|].
    destruct (printf_fuel body fl r' vs) as [q|] eqn:E; [|discriminate]. rewrite (IH _ _ _ E k). exact H.
  - destruct (printf_fuel body fl r vs) as [q|] eqn:E; [|discriminate]. rewrite (IH _ _ _ E k). exact H.
Qed.
(** A line made of plain conversions: each value padded to its width, two blanks between. *)
Lemma line_spec fs : forall ws cs (vs : list V), Forall2 (fun f p => plain f (fst p) (snd p)) fs (combine ws cs) -> length ws = length fs -> length cs = length fs -> length vs = length fs -> fs <> [] ->
  exists line, printf body (join fs) vs = Some line /\
    length line = total (map (fun p => Nat.max (fst (fst p)) (length (body (snd (fst p)) (snd p)))) (combine (combine ws cs) vs)) + 2 * (length fs - 1).
Proof.
  unfold printf.
  assert (G : forall ws cs (vs : list V), Forall2 (fun f p => plain f (fst p) (snd p)) fs (combine ws cs) -> length ws = length fs -> length cs = length fs -> length vs = length fs -> fs <> [] ->
    exists line fuel, fuel <= S (length (join fs)) /\ printf_fuel body fuel (join fs) vs = Some line /\
    length line = total (map (fun p => Nat.max (fst (fst p)) (length (body (snd (fst p)) (snd p)))) (combine (combine ws cs) vs)) + 2 * (length fs - 1)).
  { induction fs as [|f fs IH]; intros ws cs vs HF Hw Hc Hv Hne; [congruence|].
    destruct ws as [|w ws], cs as [|c cs], vs as [|v vs]; try discriminate. simpl in Hw, Hc, Hv. cbn [combine] in HF. inversion HF as [|f' p' fs' ps' HP HF' E1 E2]; subst. cbn [fst snd] in HP.
    destruct fs as [|g fs].
    - destruct (plain_spec f w c [] HP) as (lf & f' & -> & Hs). rewrite app_nil_r in Hs.
      destruct ws; [|discriminate]. destruct cs; [|discriminate]. destruct vs; [|discriminate].
      exists ((if lf then ljust w (body c v) else rjust w (body c v)) ++ []), 2. split; [simpl; lia|]. split.
      + cbn [join printf_fuel]. change (pct =? pct) with true. cbv iota. rewrite Hs. reflexivity.
      + rewrite app_nil_r. simpl. destruct lf; rewrite ?ljust_len, ?rjust_len; lia.
    - destruct (IH ws cs vs HF' ltac:(lia) ltac:(lia) ltac:(lia) ltac:(congruence)) as (line & fuel & Hfuel & Hp & Hl).
      destruct (plain_spec f w c ([blank; blank] ++ join (g :: fs)) HP) as (lf & f' & -> & Hs).
      exists ((if lf then ljust w (body c v) else rjust w (body c v)) ++ [blank; blank] ++ line), (S (S (S fuel))).
      change (join ((pct :: f') :: g :: fs)) with (pct :: (f' ++ [blank; blank] ++ join (g :: fs))). split; [|split].
      + cbn [length]. rewrite !app_length. cbn [length]. assert (f' <> []). { intros ->. unfold spec in Hs. cbn in Hs. discriminate. } destruct f'; [congruence|]. cbn [length]. lia.
      + cbn [printf_fuel]. change (pct =? pct) with true. cbv iota. rewrite Hs. change ([blank; blank] ++ join (g :: fs)) with (blank :: blank :: join (g :: fs)). cbv iota. change (blank =? pct) with false. cbv iota. rewrite Hp. reflexivity.
      + rewrite !app_length. cbn [combine map total fold_right fst snd]. rewrite Hl. cbn [length]. unfold total. destruct lf; rewrite ?ljust_len, ?rjust_len; lia. }
  intros ws cs vs HF Hw Hc Hv Hne. destruct (G ws cs vs HF Hw Hc Hv Hne) as (line & fuel & Hf & Hp & Hl). exists line. split; [|exact Hl].
  replace (S (length (join fs))) with (fuel + (S (length (join fs)) - fuel)) by lia. apply fuel_more, Hp.
Qed.

Lemma fldfmts_plain fmtmap f0 fd fp : (forall l' f, fmtmap l' = Some f -> exists w c, plain f w c) -> forall hdr idx,
  exists ws cs, length ws = length hdr /\ length cs = length hdr /\ length (fldfmts fmtmap f0 fd fp idx hdr) = length hdr /\
    Forall2 (fun f p => plain f (fst p) (snd p)) (fldfmts fmtmap f0 fd fp idx hdr) (combine ws cs) /\ traverse match_width (fldfmts fmtmap f0 fd fp idx hdr) = Some ws.
Proof.
  intros H hdr. induction hdr as [|l hdr IH]; intros idx; [exists [], []; repeat split; constructor|].
  destruct (IH (S idx)) as (ws & cs & L1 & L2 & L3 & F & T). destruct (default_plain fmtmap f0 fd fp idx l H) as (w & c & P).
  exists (w :: ws), (c :: cs). cbn [fldfmts length combine]. repeat split; try (f_equal; assumption); [constructor; assumption|].
  cbn [traverse]. rewrite (plain_match _ _ _ P), T. reflexivity.
Qed.

(** For every list of labels and every format map of plain conversions, solve_status_str succeeds; the separator is as long as the header; every
    tuple of values can be displayed; the header has the length of the columns padded to their labels, the line that of the columns padded to
    their values (columns: the widths of the formats actually used, with two blanks between). *)
Theorem C53_lengths hdr fmtmap f0 fd fp (vs : list V) : (forall l f, fmtmap l = Some f -> exists w c, plain f w c) -> hdr <> [] -> length vs = length hdr ->
  exists hs fs n line (ws : list nat) (cs : list (option uint * nat)), solve_status_str hdr fmtmap f0 fd fp = Some (hs, fs, n) /\ printf body fs vs = Some line /\
    length ws = length hdr /\ length cs = length hdr /\
    (forall i, i < length hdr -> plain (fldfmt fmtmap f0 fd fp i (nth i hdr [])) (nth i ws 0) (nth i cs (None, 0))) /\
    n = length hs /\
    length hs = total (map (fun p => Nat.max (snd p) (length (fst p))) (combine hdr ws)) + 2 * (length hdr - 1) /\
    length line = total (map (fun p => Nat.max (fst (fst p)) (length (body (snd (fst p)) (snd p)))) (combine (combine ws cs) vs)) + 2 * (length hdr - 1).
Proof.
  intros H Hne Hv. destruct (fldfmts_plain fmtmap f0 fd fp H hdr 0) as (ws & cs & L1 & L2 & L3 & F & T).
  destruct (line_spec (fldfmts fmtmap f0 fd fp 0 hdr) ws cs vs F ltac:(lia) ltac:(lia) ltac:(lia)) as (line & P & LL).
  { intros E. rewrite E in L3. destruct hdr; [congruence|discriminate]. }
  eexists _, _, _, line, ws, cs. split; [unfold solve_status_str; rewrite T; reflexivity|]. split; [exact P|]. split; [exact L1|]. split; [exact L2|].
  split; [|split; [reflexivity|split]].
  - intros i Hi. pose proof (@F2_nth text _ _ _ _ [] (0, (None, 0)) F i) as Q. rewrite L3 in Q. specialize (Q Hi). rewrite fldfmts_nth in Q by exact Hi. rewrite combine_nth in Q by lia. exact Q.
  - rewrite join_len, map_map, map_length, combine_length. replace (Nat.min (length hdr) (length ws)) with (length hdr) by lia. f_equal. f_equal. apply map_ext. intros [l w]. apply ljust_len.
  - rewrite LL. rewrite L3. reflexivity.
Qed.
(** If the labels fit their columns and the displayed values fit theirs, header, separator and line have the same length. *)
Theorem C53_consistent hdr fmtmap f0 fd fp (vs : list V) : (forall l f, fmtmap l = Some f -> exists w c, plain f w c) -> hdr <> [] -> length vs = length hdr ->
  exists hs fs n line (ws : list nat) (cs : list (option uint * nat)), solve_status_str hdr fmtmap f0 fd fp = Some (hs, fs, n) /\ printf body fs vs = Some line /\
    (forall i, i < length hdr -> plain (fldfmt fmtmap f0 fd fp i (nth i hdr [])) (nth i ws 0) (nth i cs (None, 0))) /\ n = length hs /\
    ((forall i v, i < length hdr -> nth_error vs i = Some v -> length (body (nth i cs (None, 0)) v) <= nth i ws 0) ->
     length line <= n /\ (length line = n <-> forall i, i < length hdr -> length (nth i hdr []) <= nth i ws 0)).
Proof.
  intros H Hne Hv. destruct (C53_lengths hdr fmtmap f0 fd fp vs H Hne Hv) as (hs & fs & n & line & ws & cs & E1 & E2 & L1 & L2 & P & En & Lh & Ll).
  exists hs, fs, n, line, ws, cs. split; [exact E1|]. split; [exact E2|]. split; [exact P|]. split; [exact En|]. intros Hfit. rewrite En, Lh, Ll.
  assert (A : map (fun p => Nat.max (fst (fst p)) (length (body (snd (fst p)) (snd p)))) (combine (combine ws cs) vs) = ws).
  { clear - Hfit L1 L2 Hv. revert ws cs vs L1 L2 Hv Hfit. induction hdr as [|l hdr IH]; intros [|w ws] [|c cs] [|v vs] L1 L2 Hv Hfit; try discriminate; [reflexivity|]. cbn [combine map fst snd]. f_equal.
    - specialize (Hfit 0 v ltac:(simpl; lia) eq_refl). simpl in Hfit. lia.
    - apply IH; simpl in *; try lia. intros i v' Hi Hn. apply (Hfit (S i) v' ltac:(lia) Hn). }
  rewrite A. assert (B : total ws <= total (map (fun p => Nat.max (snd p) (length (fst p))) (combine hdr ws)) /\
    (total ws = total (map (fun p => Nat.max (snd p) (length (fst p))) (combine hdr ws)) <-> forall i, i < length hdr -> length (nth i hdr []) <= nth i ws 0)).
  { clear - L1. revert ws L1. induction hdr as [|l hdr IH]; intros [|w ws] L1; try discriminate; [simpl; split; [lia|split; [intros _ i Hi; lia|reflexivity]]|].
    cbn [combine map total fold_right fst snd]. destruct (IH ws ltac:(simpl in L1; lia)) as [I1 I2]. unfold total in I1, I2. split; [lia|]. split.
    - intros E [|i] Hi; simpl in *; [lia|]. apply I2; lia.
    - intros Q. assert (E : fold_right Nat.add 0 ws = fold_right Nat.add 0 (map (fun p : text * nat => Nat.max (snd p) (length (fst p))) (combine hdr ws))).
      { apply I2. intros i Hi. apply (Q (S i)). simpl. lia. } specialize (Q 0 ltac:(simpl; lia)). simpl in Q. unfold text in *. lia. }
  destruct B as [B1 B2]. split; [lia|]. rewrite <- B2. lia.
Qed.
End line.

(** A label longer than its column makes the header and the separator longer than the lines. *)
Theorem C53_long_label_refuted : exists hdr hs fs n line, solve_status_str hdr (fun _ => None) 4 6 2 = Some (hs, fs, n) /\
  printf (fun _ (v : text) => v) fs [[49]; [49; 46; 53; 48; 101; 43; 48; 48]] = Some line /\ length line < n.
Proof. exists [[73; 116; 110]; repeat 88 9]. eexists _, _, _, _. split; [reflexivity|]. split; [reflexivity|]. simpl. lia. Qed.
(** Every label starts at its column: behind the columns before it, each of which takes the larger of its width and its label, and two blanks. *)
Lemma join_at l : forall i, i < length l -> firstn (length (nth i l [])) (skipn (total (map (fun t => length t + 2) (firstn i l))) (join l)) = nth i l [].
Proof.
  induction l as [|a l IH]; intros i Hi; [simpl in Hi; lia|]. destruct l as [|b l].
  - simpl in Hi. replace i with 0 by lia. cbn. apply firstn_all.
  - change (join (a :: b :: l)) with (a ++ [blank; blank] ++ join (b :: l)). destruct i as [|i].
    + cbn [nth firstn map total fold_right skipn]. rewrite firstn_app, Nat.sub_diag, firstn_all, firstn_O, app_nil_r. reflexivity.
    + cbn [nth]. rewrite <- (IH i) at 2 by (simpl in Hi |- *; lia). f_equal.
      cbn [firstn map]. unfold total at 1. cbn [fold_right].
      rewrite <- Nat.add_assoc, skipn_app, (skipn_all2 a) by lia.
      match goal with |- context [length a + (2 + ?k) - length a] => replace (length a + (2 + k) - length a) with (S (S k)) by lia end.
      reflexivity.
Qed.
Theorem C53_labels hdr fmtmap f0 fd fp hs fs n : solve_status_str hdr fmtmap f0 fd fp = Some (hs, fs, n) ->
  exists ws, length ws = length hdr /\ (forall i, i < length hdr -> match_width (fldfmt fmtmap f0 fd fp i (nth i hdr [])) = Some (nth i ws 0)) /\
    forall i, i < length hdr -> firstn (length (nth i hdr [])) (skipn (total (map (fun p => Nat.max (snd p) (length (fst p)) + 2) (firstn i (combine hdr ws)))) hs) = nth i hdr [].
Proof.
  unfold solve_status_str. destruct (traverse match_width (fldfmts fmtmap f0 fd fp 0 hdr)) as [ws|] eqn:T; [|discriminate]. intro E. injection E as <- _ _.
  assert (G : forall idx hdr ws, traverse match_width (fldfmts fmtmap f0 fd fp idx hdr) = Some ws -> length ws = length hdr /\
    forall i, i < length hdr -> match_width (fldfmt fmtmap f0 fd fp (idx + i) (nth i hdr [])) = Some (nth i ws 0)).
  { clear. intros idx hdr. revert idx. induction hdr as [|l hdr IH]; intros idx ws T; cbn [fldfmts traverse] in T; [injection T as <-; split; [reflexivity | cbn; lia]|].
    destruct (match_width (fldfmt fmtmap f0 fd fp idx l)) as [w|] eqn:Ew; [|discriminate].
    destruct (traverse match_width (fldfmts fmtmap f0 fd fp (S idx) hdr)) as [ws'|] eqn:Et; [|discriminate]. injection T as <-.
    destruct (IH _ _ Et) as [L N]. split; [cbn; lia|]. intros [|i] Hi; cbn [nth]; [rewrite Nat.add_0_r; exact Ew|].
    replace (idx + S i) with (S idx + i) by lia. apply N. cbn in Hi. lia. }
  destruct (G 0 hdr ws T) as [L N]. exists ws. split; [exact L|]. split; [exact N|]. intros i Hi.
  set (J := map (fun p => ljust (snd p) (fst p)) (combine hdr ws)).
  assert (LJ : length J = length hdr) by (unfold J; rewrite map_length, combine_length; lia).
  assert (NJ : nth i J [] = nth i hdr [] ++ repeat blank (nth i ws 0 - length (nth i hdr []))).
  { unfold J. rewrite (nth_indep _ [] (ljust (snd ([] : text, 0)) (fst ([] : text, 0)))) by (rewrite map_length, combine_length; lia).
    rewrite (map_nth (fun p => ljust (snd p) (fst p))), combine_nth by lia. reflexivity. }
  assert (O : total (map (fun p => Nat.max (snd p) (length (fst p)) + 2) (firstn i (combine hdr ws))) = total (map (fun t => length t + 2) (firstn i J))).
  { unfold J. rewrite firstn_map, map_map. f_equal. apply map_ext. intro p. rewrite ljust_len. reflexivity. }
  rewrite O. pose proof (join_at J i ltac:(unfold text in *; rewrite LJ; exact Hi)) as A. change (nth i J (@nil nat)) with (nth i J ([] : text)) in A. rewrite NJ, app_length in A.
  apply (f_equal (firstn (length (nth i hdr [])))) in A. rewrite firstn_firstn, firstn_app, Nat.sub_diag, firstn_all, firstn_O, app_nil_r in A.
  rewrite Nat.min_l in A by lia. exact A.
Qed.
(** A format without a width is rejected. *)
Theorem C53_rejects hdr fmtmap f0 fd fp l f : In l hdr -> fmtmap l = Some f -> match_width f = None -> solve_status_str hdr fmtmap f0 fd fp = None.
Proof.
  intros Hi Hf Hm. unfold solve_status_str. generalize 0 as idx. assert (G : forall idx, traverse match_width (fldfmts fmtmap f0 fd fp idx hdr) = None).
  { induction hdr as [|a hdr IH]; [destruct Hi|]. intros idx. cbn [fldfmts traverse]. destruct Hi as [->|Hi].
    - unfold fldfmt. rewrite Hf, Hm. reflexivity.
    - rewrite (IH Hi). destruct (match_width (fldfmt fmtmap f0 fd fp idx a)); reflexivity. }
  intros idx. rewrite G. reflexivity.
Qed.
(** The labels of pgm/pgm.py with backtracking: Itn, Fnc, It_Bt, Rsdl. *)
Example C53_ex : exists hs fs n line, solve_status_str [[73; 116; 110]; [70; 110; 99]; [73; 116; 95; 66; 116]; [82; 115; 100; 108]]
    (fun l => if list_eq_dec Nat.eq_dec l [73; 116; 95; 66; 116] then Some [37; 53; 100] else None) 4 6 2 = Some (hs, fs, n) /\
  printf (fun _ (v : text) => v) fs [[49]; repeat 49 8; [50]; repeat 49 8] = Some line /\ n = 31 /\ length line = 31.
Proof. eexists _, _, _, _. split; [reflexivity|]. split; [reflexivity|]. split; reflexivity. Qed.
Print Assumptions C53_labels.
Print Assumptions C53_lengths. Print Assumptions C53_consistent. Print Assumptions C53_rejects. Print Assumptions C53_long_label_refuted.

