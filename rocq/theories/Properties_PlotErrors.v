(** Property C95: the plotting functions on arrays of one dimension and on
    arrays that do not fit. *)
From Coq Require Import String Reals Lra Lia List Arith ZArith Bool.
From Verif Require Import Prelude Py NumArr M_Plotters P_Plotters Properties_Plotters.
Import ListNotations.
Open Scope R_scope.

(** f holds the numbers v 0 .. v (k-1), as a column or as a 1-d array *)
Definition holds (f : nd R) (k : nat) (v : nat -> R) : Prop :=
  (shape f = [k; 1%nat] /\ forall i, (i < k)%nat -> f.[i, 0%nat] = v i) \/
  (shape f = [k] /\ forall i, (i < k)%nat -> f.[i] = v i).

Lemma responses_holds : forall f k v, holds f k v -> responses f = Ok (map v (seq 0 k)).
Proof.
  intros f k v [[Hs Hv]|[Hs Hv]]; unfold responses; rewrite Hs.
  - rewrite (column_ok f k 1 0 Hs) by lia. f_equal. apply map_ext_in. intros i Hi. apply in_seq in Hi. apply Hv. lia.
  - f_equal. apply map_ext_in. intros i Hi. apply in_seq in Hi. apply Hv. lia.
Qed.
Lemma dim0_holds : forall f k v, holds f k v -> dim0 f = Ok k.
Proof. intros f k v [[Hs _]|[Hs _]]; unfold dim0; rewrite Hs; reflexivity. Qed.
Lemma plot_any_holds : forall kind f k v w x, holds f k v -> List.length x = k ->
  plot_any kind x f w = plot kind x (map v (seq 0 k)) w.
Proof.
  intros kind f k v w x [[Hs Hv]|[Hs Hv]] Hx; unfold plot_any; rewrite Hs.
  - assert (E : map (fun i => f.[i, 0%nat]) (seq 0 k) = map v (seq 0 k)).
    { apply map_ext_in. intros i Hi. apply in_seq in Hi. apply Hv. lia. }
    simpl seq. cbn [plot_cols]. rewrite (mb _ _ _ _ _ (ml _ _ _ (column_ok f k 1 0 Hs ltac:(lia)))), E.
    unfold plot. rewrite Hx, len_map_seq, Nat.eqb_refl. unfold mbind, draw, mret. reflexivity.
  - f_equal. apply map_ext_in. intros i Hi. apply in_seq in Hi. apply Hv. lia.
Qed.
Lemma entries_holds : forall f k v, holds f k v -> entries f = map v (seq 0 k).
Proof.
  intros f k v [[Hs Hv]|[Hs Hv]]; unfold entries, size; rewrite Hs; cbn [prodn].
  - replace (k * (1 * 1))%nat with k by lia. apply map_ext_in. intros i Hi. apply in_seq in Hi.
    cbn [unravel prodn]. change (1 * 1)%nat with 1%nat. rewrite Nat.mod_1_r, !Nat.div_1_r. apply Hv. lia.
  - replace (k * 1)%nat with k by lia. apply map_ext_in. intros i Hi. apply in_seq in Hi.
    cbn [unravel prodn]. rewrite Nat.div_1_r. apply Hv. lia.
Qed.

(** C95: the eigenvalues, and the values of the responses, may be given as a
    column or as a 1-d array: what is drawn, shown and saved is the same *)
Theorem C95_columns_or_flat : forall k v f1 f2, holds f1 k v -> holds f2 k v ->
  (forall e_br lab opts w, eigenvalues f1 e_br lab opts w = eigenvalues f2 e_br lab opts w) /\
  (forall y lab opts w, sufficient_summary y f1 lab opts w = sufficient_summary y f2 lab opts w) /\
  (forall ch dl V design y lab opts w,
     zonotope_2d_plot ch dl V design y (Some f1) lab opts w = zonotope_2d_plot ch dl V design y (Some f2) lab opts w).
Proof.
  intros k v f1 f2 H1 H2. split; [|split].
  - intros e_br lab opts w. unfold eigenvalues. rewrite (dim0_holds _ _ _ H1), (dim0_holds _ _ _ H2), (entries_holds _ _ _ H1), (entries_holds _ _ _ H2).
    unfold mbind. destruct (get_opts opts w) as [[o|e] w1]; [|reflexivity]. cbn [mlift]. unfold mlift.
    destruct (figure w1) as [[[]|?] w2]; [|reflexivity]. destruct (draw (IStyle "font") w2) as [[[]|?] w3]; [|reflexivity].
    rewrite (plot_any_holds _ _ _ _ _ _ H1 (len_range1 k)), (plot_any_holds _ _ _ _ _ _ H2 (len_range1 k)). reflexivity.
  - intros y lab opts w. unfold sufficient_summary. rewrite (responses_holds _ _ _ H1), (responses_holds _ _ _ H2). reflexivity.
  - intros ch dl V design y lab opts w. unfold zonotope_2d_plot. rewrite (responses_holds _ _ _ H1), (responses_holds _ _ _ H2), (dim0_holds _ _ _ H1), (dim0_holds _ _ _ H2). reflexivity.
Qed.
Print Assumptions C95_columns_or_flat.

(** the call raised after opening a figure: nothing is shown or saved, and the
    unfinished figure stays open *)
Definition unfinished (w w' : pyplot) : Prop :=
  p_shown w' = p_shown w /\ p_files w' = p_files w /\ exists f, p_open w' = p_open w ++ [f].

Lemma plot_err : forall kind x y w, List.length x <> List.length y -> plot kind x y w = (Err ValueError, w).
Proof. intros kind x y w H. unfold plot. destruct (Nat.eqb_spec (List.length x) (List.length y)); [contradiction | reflexivity]. Qed.
Lemma fill_err : forall x y1 y2 w, List.length x <> List.length y1 \/ List.length x <> List.length y2 -> fill_between x y1 y2 w = (Err ValueError, w).
Proof.
  intros x y1 y2 w H. unfold fill_between.
  destruct (Nat.eqb_spec (List.length x) (List.length y1)), (Nat.eqb_spec (List.length x) (List.length y2)); try reflexivity. destruct H; contradiction.
Qed.
Lemma column_err : forall X r c j, shape X = [r; c] -> (c <= j)%nat -> column X j = Err IndexError.
Proof. intros X r c j H Hj. unfold column. rewrite H. destruct (Nat.ltb_spec j c); [lia | reflexivity]. Qed.
Lemma ml_err : forall {A} (r : res A) e (w : pyplot), r = Err e -> mlift r w = (Err e, w).
Proof. intros A r e w ->. reflexivity. Qed.
Ltac lfe E := rewrite (mb_err _ _ _ _ _ (ml_err _ _ _ E)).
Ltac start opts :=
  erewrite by_opts by reflexivity;
  match goal with |- context [in_force opts ?w] =>
    let E := fresh in
    assert (E : p_open (snd (in_force opts w)) = p_open w /\ p_shown (snd (in_force opts w)) = p_shown w /\ p_files (snd (in_force opts w)) = p_files w)
      by (destruct opts; simpl; auto);
    destruct (in_force opts w) as [o [l s fs d]]; simpl fst in *; simpl snd in *; simpl in E; destruct E as (-> & -> & ->)
  end.
Ltac fin := eexists; split; [reflexivity | split; [reflexivity | split; [reflexivity | eexists; reflexivity]]].

(** C95: ranges with the wrong number of rows or too few columns, and responses
    of the wrong length, are refused -- but only after a figure has been opened,
    and it is left open *)
Theorem C95_misfits :
  (forall e k v B r c lab opts w, holds e k v -> shape B = [r; c] ->
     ((2 <= c)%nat -> r <> k -> exists w', eigenvalues e (Some B) lab opts w = (Err ValueError, w') /\ unfinished w w') /\
     ((c < 2)%nat -> exists w', eigenvalues e (Some B) lab opts w = (Err IndexError, w') /\ unfinished w w')) /\
  (forall b k c lab opts w, shape b = [k; c] -> (c < 3)%nat ->
     exists w', subspace_errors b lab opts w = (Err IndexError, w') /\ unfinished w w') /\
  (forall W0 m n B r labs lab opts w, shape W0 = [m; n] -> shape B = [r; (2 * n)%nat] -> (0 < n)%nat -> r <> m ->
     exists w', eigenvectors W0 (Some B) labs lab opts w = (Err ValueError, w') /\ unfinished w w') /\
  (forall y f M K n v lab opts w, shape y = [M; n] -> (n = 1 \/ n = 2)%nat -> holds f K v -> K <> M ->
     exists w', sufficient_summary y f lab opts w = (Err ValueError, w') /\ unfinished w w').
Proof.
  split; [|split; [|split]].
  - intros e k v B r c lab opts w He HB. unfold eigenvalues. start opts.
    rewrite (mb _ _ _ _ _ (ml _ _ _ (dim0_holds _ _ _ He))). cbv zeta. evd. evd.
    assert (PA : forall w x, x = range1 k -> plot_any "semilogy" x e w = plot "semilogy" x (map v (seq 0 k)) w).
    { intros w0 x ->. apply plot_any_holds; [exact He | apply len_range1]. }
    erewrite mb by (rewrite PA by reflexivity; apply plot_ev; rewrite len_range1, len_map_seq; reflexivity).
    split.
    + intros Hc Hr. erewrite mb_err.
      2: { lft (column_ok B r c 0 HB ltac:(lia)). lft (column_ok B r c 1 HB ltac:(lia)). apply fill_err.
           rewrite len_range1, !len_map_seq. auto. }
      fin.
    + intros Hc. destruct (Nat.eq_dec c 0) as [H0|H0].
      * erewrite mb_err by (lfe (column_err B r c 0 HB ltac:(lia)); reflexivity). fin.
      * erewrite mb_err by (lft (column_ok B r c 0 HB ltac:(lia)); lfe (column_err B r c 1 HB ltac:(lia)); reflexivity). fin.
  - intros b k c lab opts w Hb Hc. unfold subspace_errors. start opts.
    assert (D0 : dim0 b = Ok k) by (unfold dim0; rewrite Hb; reflexivity). lft D0. cbv zeta. evd. evd.
    destruct (Nat.le_gt_cases c 1) as [H1|H1].
    + lfe (column_err b k c 1 Hb H1). fin.
    + lft (column_ok b k c 1 Hb ltac:(lia)). evd. lft (column_ok b k c 0 Hb ltac:(lia)). lfe (column_err b k c 2 Hb ltac:(lia)). fin.
  - intros W0 m n B r labs lab opts w HW HB Hn Hr. unfold eigenvectors. start opts. rewrite HW, (mb _ _ _ _ _ (ml _ _ _ eq_refl)).
    erewrite (mb _ _ _ tt) by (apply ml; rewrite HB, Nat.eqb_refl; reflexivity). cbv zeta. evd.
    assert (CE : forall l cur s fs d, curve W0 (Some B) m 0 (PP (l ++ [cur]) s fs d) =
      (Err ValueError, PP (l ++ [cur ++ [ILine "plot" (curve_pts m (fun i => W0.[i, 0%nat]))]]) s fs d)).
    { intros l0 cur s0 fs0 d0. unfold curve. lft (column_ok W0 m n 0 HW Hn). evd. rewrite combine_curve.
      lft (column_ok B r (2 * n) (2 * 0) HB ltac:(lia)). lft (column_ok B r (2 * n) (2 * 0 + 1) HB ltac:(lia)).
      rewrite fill_err; [reflexivity | rewrite len_range1, !len_map_seq; auto]. }
    assert (PE : forall code t labs l cur s fs d, panel W0 (Some B) m code 0 t labs (PP (l ++ [cur]) s fs d) =
      (Err ValueError, PP (l ++ [((cur ++ [IPanel code]) ++ [IStyle "font"]) ++ [ILine "plot" (curve_pts m (fun i => W0.[i, 0%nat]))]]) s fs d)).
    { intros. unfold panel. evd. evd. rewrite (mb_err _ _ _ _ _ (CE _ _ _ _ _)). reflexivity. }
    destruct n as [|[|[|[|n]]]]; [lia | | | |].
    + erewrite mb_err by (evd; rewrite (mb_err _ _ _ _ _ (CE _ _ _ _ _)); reflexivity). fin.
    + erewrite mb_err by (rewrite (mb_err _ _ _ _ _ (PE _ _ _ _ _ _ _ _)); reflexivity). fin.
    + erewrite mb_err by (rewrite (mb_err _ _ _ _ _ (PE _ _ _ _ _ _ _ _)); reflexivity). fin.
    + erewrite mb_err by (rewrite (mb_err _ _ _ _ _ (PE _ _ _ _ _ _ _ _)); reflexivity). fin.
  - intros y f M K n v lab opts w Hy Hn Hf HK. unfold sufficient_summary. start opts.
    assert (D1 : dim1 y = Ok n) by (unfold dim1; rewrite Hy; reflexivity). lft D1.
    erewrite (mb _ _ _ tt) by (apply ml; destruct Hn as [-> | ->]; reflexivity). cbv zeta. evd. evd.
    lft (column_ok y M n 0 Hy ltac:(lia)). lft (responses_holds _ _ _ Hf).
    erewrite mb_err by (apply plot_err; rewrite !len_map_seq; auto). fin.
Qed.
Print Assumptions C95_misfits.

(** arrays without the dimension asked for are refused before anything is drawn *)
Theorem C95_no_such_dimension :
  (forall e e_br lab opts w, shape e = [] -> eigenvalues e e_br lab opts w = (Err IndexError, snd (in_force opts w))) /\
  (forall b lab opts w, shape b = [] -> subspace_errors b lab opts w = (Err IndexError, snd (in_force opts w))) /\
  (forall y f lab opts w, (rank y <= 1)%nat -> sufficient_summary y f lab opts w = (Err IndexError, snd (in_force opts w))) /\
  (forall W0 W_br labs lab opts w, rank W0 <> 2%nat -> eigenvectors W0 W_br labs lab opts w = (Err ValueError, snd (in_force opts w))) /\
  (forall ch dl V design y f lab opts w, (rank V <= 1)%nat ->
     zonotope_2d_plot ch dl V design y f lab opts w = (Err IndexError, snd (in_force opts w))).
Proof.
  assert (D : forall X : nd R, (rank X <= 1)%nat -> dim1 X = Err IndexError).
  { intros X. unfold rank, dim1. destruct (shape X) as [|a [|b t]]; simpl; auto. lia. }
  split; [|split; [|split; [|split]]].
  - intros e e_br lab opts w H. unfold eigenvalues. erewrite by_opts by reflexivity. unfold dim0. rewrite H. reflexivity.
  - intros b lab opts w H. unfold subspace_errors. erewrite by_opts by reflexivity. unfold dim0. rewrite H. reflexivity.
  - intros y f lab opts w H. unfold sufficient_summary. erewrite by_opts by reflexivity. rewrite (D _ H). reflexivity.
  - intros W0 W_br labs lab opts w H. unfold eigenvectors. erewrite by_opts by reflexivity. unfold rank in H.
    destruct (shape W0) as [|a [|b [|c t]]]; try reflexivity. contradiction (H eq_refl).
  - intros ch dl V design y f lab opts w H. unfold zonotope_2d_plot. erewrite by_opts by reflexivity. cbv zeta. rewrite (D _ H). reflexivity.
Qed.
Print Assumptions C95_no_such_dimension.

(** So a call does not show only its own figures: after a failed call the
    unfinished figure comes up with the next plot. *)
Definition e1 : nd R := mk1 1 (fun _ => 1).
Definition bad_br : nd R := mk2 2 2 (fun _ _ => 1).
Theorem C95_own_figure_refuted :
  ~ (forall e1 B lab1 opts1 e k v lab opts w w1 w2 r, p_open w = [] ->
       eigenvalues e1 (Some B) lab1 opts1 w = (r, w1) -> holds e k v -> eigenvalues e None lab opts w1 = (Ok tt, w2) ->
       exists f, p_shown w2 = p_shown w1 ++ [f]).
Proof.
  intros H.
  assert (HE : holds e1 1 (fun _ => 1)) by (right; split; [reflexivity | intros; unfold e1; rewrite at_mk1 by assumption; reflexivity]).
  destruct C95_misfits as (M1 & _).
  destruct (proj1 (M1 e1 1%nat _ bad_br 2%nat 2%nat None (Some (PO false ".eps")) (PP [] [] [] false) HE eq_refl) ltac:(lia) ltac:(lia)) as (w1 & E1 & S1 & F1 & g & O1).
  simpl in S1, F1, O1.
  set (e2 := mk2 1 1 (fun _ _ => 1)).
  assert (HE2 : holds e2 1 (fun _ => 1)) by (left; split; [reflexivity | intros; unfold e2; rewrite at_mk2 by lia; reflexivity]).
  destruct (C63_eigenvalues e2 1 None None (Some (PO false ".eps")) w1 eq_refl) as (f & w2 & E2 & (D1 & D2 & D3) & _).
  - lia.
  - intros i Hi. unfold e2. rewrite at_mk2 by lia. lra.
  - exact I.
  - intros HF. discriminate.
  - destruct (H e1 bad_br None (Some (PO false ".eps")) e2 1%nat _ None (Some (PO false ".eps")) (PP [] [] [] false) w1 w2 _ eq_refl E1 HE2 E2) as (f' & HF).
    rewrite HF in D2. apply app_inv_head in D2. rewrite O1 in D2. discriminate D2.
Qed.
Print Assumptions C95_own_figure_refuted.

(** Concrete case: three eigenvalues in a 1-d array are drawn as a curve. *)
Example C95_case : exists f w', eigenvalues (mk1 2 (fun i => INR (2 - i))) None None None (PP [] [] [] false) = (Ok tt, w') /\
  p_shown w' = [f] /\ lines_of f = [[(1, 2); (2, 1)]] /\ p_files w' = [("figs/evals_Output.eps"%string, f)].
Proof.
  set (e := mk1 2 (fun i => INR (2 - i))). set (c := mk2 2 1 (fun i _ => INR (2 - i))).
  assert (H1 : holds e 2 (fun i => INR (2 - i))) by (right; split; [reflexivity | intros; unfold e; rewrite at_mk1 by assumption; reflexivity]).
  assert (H2 : holds c 2 (fun i => INR (2 - i))) by (left; split; [reflexivity | intros; unfold c; rewrite at_mk2 by lia; reflexivity]).
  destruct (C95_columns_or_flat _ _ _ _ H1 H2) as (T & _). rewrite T.
  destruct (C63_eigenvalues c 2 None None None (PP [] [] [] false) eq_refl) as (f & w' & E & (D1 & D2 & D3) & L & _).
  - lia.
  - intros i Hi. unfold c. rewrite at_mk2 by lia. apply pos_INR.
  - exact I.
  - exact I.
  - exists f, w'. split; [exact E |]. split; [exact D2 |]. split; [|exact D3]. rewrite L. unfold curve_pts. simpl. repeat f_equal; lra.
Qed.
