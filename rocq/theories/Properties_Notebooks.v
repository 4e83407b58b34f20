(** Property C96: what the example notebooks of the test functions compute and
    draw. *)
From Coq Require Import String Reals Lra Lia List Arith ZArith Bool.
From Verif Require Import Prelude Py NumArr LinAlg Lsq Sorting Spectral Det M_Misc P_Misc M_QP M_Subspaces P_Subspaces P_SubsState P_Bootstrap P_SubsLive
  M_Domains P_Domains P_Optimizers M_Plotters P_Plotters Properties_Plotters M_Tutorials P_Tutorials Properties_Tutorials Properties_TestFunctions
  Properties_Subspaces Properties_SubsState Properties_Integrate M_Notebooks P_Notebooks EighRef Toy.
Import ListNotations.
Open Scope R_scope.

(** e, V are the eigenvalues, decreasing, and the orthonormal eigenvectors of the
    mean of g g^T over the N vectors g = D s *)
Definition principal_axes (N m : nat) (D : nat -> nat -> R) (e V : nd R) : Prop :=
  shape e = [m; 1%nat] /\ shape V = [m; m] /\
  (forall a b, (a < m)%nat -> (b < m)%nat -> sumf m (fun i => V.[i, a] * V.[i, b]) = if Nat.eqb a b then 1 else 0) /\
  (forall j, (j < m)%nat -> 0 <= V.[0%nat, j] /\ 0 <= e.[j, 0%nat]) /\
  (forall i j, (i <= j)%nat -> (j < m)%nat -> e.[j, 0%nat] <= e.[i, 0%nat]) /\
  (forall i k, (i < m)%nat -> (k < m)%nat ->
     sumf N (fun s => D s i * D s k) / INR N = sumf m (fun j => e.[j, 0%nat] * V.[i, j] * V.[k, j])).

Lemma principal : forall eigh argsort N m D wt e V, eigh_contract eigh -> argsort_contract argsort -> (1 <= N)%nat ->
  shape D = [N; m] -> shape wt = [N; 1%nat] -> (forall s, (s < N)%nat -> wt.[s, 0%nat] = / INR N) ->
  active_subspace eigh argsort D wt = Ok (e, V) -> principal_axes N m (fun i j => D.[i, j]) e V.
Proof.
  intros eigh argsort N m D wt e V HE HA HN HD Hw Hv H.
  assert (P0 : 0 < / INR N) by (apply Rinv_0_lt_compat, lt_0_INR; lia).
  destruct (active_subspace_spec eigh argsort HE HA N m D wt e V HD Hw H) as (lam & L).
  assert (P := gradC_psd N m (ent D) (fun s => wt.[s, 0%nat]) (fun s Hs => Rlt_le _ _ (eq_ind_r (fun x => 0 < x) P0 (Hv s Hs)))).
  assert (EV := eigsorted_psd_eig _ _ _ _ _ L P).
  split; [apply (es_e _ _ _ _ _ L)|]. split; [apply (es_V _ _ _ _ _ L)|].
  split; [exact (es_orth _ _ _ _ _ L)|]. split.
  { intros j Hj. split; [apply (es_row0 _ _ _ _ _ L); auto | apply (eigsorted_nonneg _ _ _ _ _ L); auto]. }
  split; [exact (es_dec _ _ _ _ _ L)|].
  intros i k Hi Hk. pose proof (reassemble m _ (fun j => e.[j, 0%nat]) (ent V) (es_orth _ _ _ _ _ L) EV i k Hi Hk) as Q.
  unfold ent in Q. rewrite <- Q. unfold gradC, Rdiv. rewrite Rmult_comm, <- sumf_scal_l. apply sumf_ext. intros s Hs. rewrite Hv by auto. reflexivity.
Qed.

(** x is the smallest (largest) of v 0 .. v (n-1) *)
Definition least (n : nat) (v : nat -> R) (x : R) : Prop := (forall b, (b < n)%nat -> x <= v b) /\ exists b, (b < n)%nat /\ x = v b.
Definition greatest (n : nat) (v : nat -> R) (x : R) : Prop := (forall b, (b < n)%nat -> v b <= x) /\ exists b, (b < n)%nat /\ x = v b.

(** the active subspace of the gradients D with bootstrap ranges B of the
    eigenvalues and S of the subspace errors, from nb resamplings of the rows,
    and the first two active variables y of the points XX *)
Definition subspace_of (N m nb : nat) (XX D e V B S y : nd R) : Prop :=
  principal_axes N m (fun i j => D.[i, j]) e V /\
  shape B = [m; 2%nat] /\ shape S = [(m - 1)%nat; 3%nat] /\
  (exists (ind : nat -> nat -> nat) (eb Vb : nat -> nd R) (dist : nat -> nat -> R),
    (forall b, (b < nb)%nat -> (forall i, (i < N)%nat -> (ind b i < N)%nat) /\
       principal_axes N m (fun i j => D.[ind b i, j]) (eb b) (Vb b)) /\
    (forall b j, (b < nb)%nat -> (j < m - 1)%nat ->
       is_norm2 (j + 1) (m - (j + 1)) (fun a c => sumf m (fun l => V.[l, a] * (Vb b).[l, (j + 1 + c)%nat])) (dist b j)) /\
    (forall j, (j < m)%nat -> least nb (fun b => (eb b).[j, 0%nat]) (B.[j, 0%nat]) /\ greatest nb (fun b => (eb b).[j, 0%nat]) (B.[j, 1%nat])) /\
    (forall j, (j < m - 1)%nat -> least nb (fun b => dist b j) (S.[j, 0%nat]) /\ S.[j, 1%nat] = sumf nb (fun b => dist b j) / INR nb /\
       greatest nb (fun b => dist b j) (S.[j, 2%nat]) /\ 0 <= S.[j, 0%nat] <= S.[j, 1%nat] /\ S.[j, 1%nat] <= S.[j, 2%nat] <= 1)) /\
  shape y = [N; 2%nat] /\
  (forall i j, (i < N)%nat -> (j < 2)%nat -> y.[i, j] = sumf m (fun k => XX.[i, k] * V.[k, j])).

(** the eigenvalue plot: with a band that need not contain the curve *)
Lemma evals_drawn : forall (e B : nd R) k c w, shape e = [k; 1%nat] -> (0 < k)%nat -> shape B = [k; c] -> (2 <= c)%nat ->
  (forall i, (i < k)%nat -> 0 <= B.[i, 0%nat] <= B.[i, 1%nat]) ->
  exists f w', eigenvalues e (Some B) None None w = (Ok tt, w') /\ displays w w' [f] [("figs/evals_Output.eps"%string, f)] /\
    lines_of f = [curve_pts k (fun i => e.[i, 0%nat])] /\
    bands_of f = [band_pts k (fun i => B.[i, 0%nat]) (fun i => B.[i, 1%nat])] /\
    exists win, windows_of f = [win] /\
      forall i, (i < k)%nat -> in_window win (INR (i + 1)) (B.[i, 0%nat]) /\ in_window win (INR (i + 1)) (B.[i, 1%nat]).
Proof.
  intros e B k c [l s fs d] He Hk HB Hc Hb.
  assert (IX : forall i, (i < k)%nat -> 0 <= INR (i + 1) <= INR (k + 1)).
  { intros i Hi. split; [apply pos_INR | apply le_INR; lia]. }
  unfold eigenvalues. erewrite by_opts by reflexivity. cbn [in_force fst snd p_open p_shown p_files].
  assert (D0 : dim0 e = Ok k) by (unfold dim0; rewrite He; reflexivity).
  lft D0. cbv zeta. evd. evd.
  assert (PC : forall cur, plot_any "semilogy" (range1 k) e (PP (l ++ [cur]) s fs true) =
    (Ok tt, PP (l ++ [cur ++ [ILine "semilogy" (curve_pts k (fun i => e.[i, 0%nat]))]]) s fs true)).
  { intros cur. unfold plot_any. rewrite He. simpl seq. cbn [plot_cols]. lft (column_ok e k 1 0 He ltac:(lia)). evd. rewrite combine_curve. reflexivity. }
  erewrite (mb _ _ _ _ _ (PC _)).
  pose proof (column_ok B k c 0 HB ltac:(lia)) as C0. pose proof (column_ok B k c 1 HB ltac:(lia)) as C1.
  destruct (rmin_ok (map (fun i => B.[i, 0%nat]) (seq 0 k)) (map_seq_ne _ _ Hk)) as (a & A1 & A2 & A3).
  destruct (rmax_ok (map (fun i => B.[i, 1%nat]) (seq 0 k)) (map_seq_ne _ _ Hk)) as (b & B1 & B2 & B3).
  erewrite (mb _ _ _ tt) by (lft C0; lft C1; rewrite fill_ev by (rewrite ?len_range1, ?len_map_seq; reflexivity); reflexivity).
  rewrite combine_band. evd.
  erewrite (mb _ _ _ tt) by (lft C0; lft A1; lft C1; lft B1; apply draw_ev).
  erewrite mb by (apply save_ev; reflexivity). rewrite show_ev.
  eexists. eexists. split; [reflexivity |]. split; [repeat split |]. cbn [app]. split; [reflexivity |]. split; [reflexivity |].
  eexists. split; [reflexivity |]. intros i Hi. pose proof (Hb i Hi) as Hbi. specialize (IX i Hi).
  assert (I0 : In (B.[i, 0%nat]) (map (fun i => B.[i, 0%nat]) (seq 0 k))) by (apply in_map_iff; exists i; split; [reflexivity | apply in_seq; lia]).
  assert (I1 : In (B.[i, 1%nat]) (map (fun i => B.[i, 1%nat]) (seq 0 k))) by (apply in_map_iff; exists i; split; [reflexivity | apply in_seq; lia]).
  apply A3 in I0. apply B3 in I1.
  assert (A0 : 0 <= a). { apply in_map_iff in A2. destruct A2 as (i0 & <- & Hi0). apply in_seq in Hi0. specialize (Hb i0 ltac:(lia)). lra. }
  unfold in_window. repeat split; lra.
Qed.

(** the figures: the first k eigenvalues (subspace errors) with their ranges, the
    eigenvectors a, a+1, .., a+n-1 in n panels, the summary plots *)
Definition values_drawn (k : nat) (e B : nd R) (f : fig) : Prop :=
  lines_of f = [curve_pts k (fun i => e.[i, 0%nat])] /\
  bands_of f = [band_pts k (fun i => B.[i, 0%nat]) (fun i => B.[i, 1%nat])] /\
  exists win, windows_of f = [win] /\
    forall i, (i < k)%nat -> in_window win (INR (i + 1)) (B.[i, 0%nat]) /\ in_window win (INR (i + 1)) (B.[i, 1%nat]).
Definition errors_drawn (k : nat) (S : nd R) (f : fig) : Prop :=
  lines_of f = [curve_pts k (fun i => S.[i, 1%nat])] /\
  bands_of f = [band_pts k (fun i => S.[i, 0%nat]) (fun i => S.[i, 2%nat])] /\
  exists win, windows_of f = [win] /\ forall i j, (i < k)%nat -> (j < 3)%nat -> in_window win (INR (i + 1)) (S.[i, j]).
Lemma some_window : forall f k (S : nd R) win, windows_of f = [win] ->
  (forall i j, (i < k)%nat -> (j < 3)%nat -> in_window win (INR (i + 1)) (S.[i, j])) ->
  exists win, windows_of f = [win] /\ forall i j, (i < k)%nat -> (j < 3)%nat -> in_window win (INR (i + 1)) (S.[i, j]).
Proof. intros f k S win H1 H2. exists win. auto. Qed.
Definition vectors_drawn (m n a : nat) (V : nd R) (labels : list string) (f : fig) : Prop :=
  List.length (axes_of f) = n /\
  (forall j, (j < n)%nat -> let x := nth j (axes_of f) [] in
     lines_of x = [curve_pts m (fun i => V.[i, (a + j)%nat])] /\ titles_of x = [("Output, evec " ++ digit j)%string] /\
     exists win, windows_of x = [win] /\ forall i, (i < m)%nat -> in_window win (INR (i + 1)) (V.[i, (a + j)%nat])) /\
  ticks_of (last (axes_of f) []) = [(map INR (seq 1 m), labels)].
Definition summary_drawn (N : nat) (y F : nd R) (g h : fig) : Prop :=
  lines_of g = [map (fun i => (y.[i, 0%nat], F.[i, 0%nat])) (seq 0 N)] /\ clouds_of h = [cloud N y F].

Lemma displays_trans : forall p1 p2 p3 f g s t, displays p1 p2 f s -> displays p2 p3 g t -> displays p1 p3 (f ++ g) (s ++ t).
Proof.
  intros p1 p2 p3 f g s t (A1 & A2 & A3) (B1 & B2 & B3). split; [exact B1|]. rewrite B2, B3, A1, A2, A3. split; now rewrite <- ?app_assoc.
Qed.

Lemma unit_columns : forall m (V : nd R), (forall a b, (a < m)%nat -> (b < m)%nat -> sumf m (fun i => V.[i, a] * V.[i, b]) = if Nat.eqb a b then 1 else 0) ->
  forall i j, (i < m)%nat -> (j < m)%nat -> -1 <= V.[i, j] <= 1.
Proof.
  intros m V H i j Hi Hj. pose proof (H j j Hj Hj) as E. rewrite Nat.eqb_refl in E.
  pose proof (sumf_term_le m (fun i => V.[i, j] * V.[i, j]) i (fun k _ => Rle_0_sqr _) Hi) as Q. cbv beta in Q. rewrite E in Q. nra.
Qed.

Lemma vectors_ev : forall m n a b (V : nd R) labels p, shape V = [m; m] -> (2 <= n <= 4)%nat -> (a + n <= m)%nat -> Nat.min b m = (a + n)%nat ->
  (forall a b, (a < m)%nat -> (b < m)%nat -> sumf m (fun i => V.[i, a] * V.[i, b]) = if Nat.eqb a b then 1 else 0) ->
  exists f p', eigenvectors (cols_slice V a b) None (Some labels) None None p = (Ok tt, p') /\
    displays p p' [f] [("figs/evecs_Output.eps"%string, f)] /\ vectors_drawn m n a V labels f.
Proof.
  intros m n a b V labels p SV Hn Ha Hb HO.
  assert (SC : shape (cols_slice V a b) = [m; n]).
  { unfold cols_slice. rewrite (nrows_shape2 _ V m m SV), (ncols_shape2 _ V m m SV), Hb. cbn [shape mk2]. do 2 f_equal. lia. }
  destruct (C64_eigenvectors (cols_slice V a b) m n None (Some labels) None None p SC ltac:(lia) I I) as (f & p' & E & D & L & _ & P & T).
  replace (Nat.min n 4) with n in * by lia. assert (E1 : Nat.eqb n 1 = false) by (apply Nat.eqb_neq; lia). rewrite E1 in P.
  exists f, p'. split; [exact E|]. split; [exact D|]. split; [exact L|]. split; [|exact T].
  intros j Hj x. destruct (P j Hj) as (P1 & _ & P3 & _ & _ & win & P6 & P7). fold x in P1, P3, P6. split; [exact P1|]. split; [exact P3|].
  exists win. split; [exact P6|]. intros i Hi. apply (P7 i Hi). assert (Hj2 : (a + j < m)%nat) by lia. exact (unit_columns m V HO i (a + j)%nat Hi Hj2).
Qed.

Section Run.
  Context {G : gen} {U : Type}.
  Notation Wd := (world G U (nd R)).
  Notation NB := ((Wd * subspaces) * pyplot)%type.
  Variable eigh : nd R -> res (nd R * nd R).
  Variable argsort : list R -> list nat.
  Variable lstsq : nd R -> nd R -> res (nd R).
  Variable norm2 : nd R -> R.
  Variable det : nd R -> R.
  Hypothesis HE : eigh_contract eigh.
  Hypothesis HA : argsort_contract argsort.
  Hypothesis HT : eigh_total eigh.
  Hypothesis HNm : norm2_contract norm2.
  Hypothesis HD : det_contract det.

  Lemma onS_ev : forall {A} (m : M (Wd * subspaces) A) ws p a ws', m ws = (Ok a, ws') -> onS m (ws, p) = (Ok a, (ws', p)).
  Proof. intros A m ws p a ws' H. unfold onS. cbn [fst snd]. rewrite H. reflexivity. Qed.
  Lemma onP_ev : forall {A} (m : M pyplot A) (ws : Wd * subspaces) p a p', m p = (Ok a, p') -> onP m (ws, p) = (Ok a, (ws, p')).
  Proof. intros A m ws p a p' H. unfold onP. cbn [fst snd]. rewrite H. reflexivity. Qed.
  Lemma onW_ev : forall {A} (m : M Wd A) w s p a w', m w = (Ok a, w') -> onW m ((w, s), p) = (Ok a, ((w', s), p)).
  Proof. intros A m w s p a w' H. unfold onW. apply onS_ev. unfold liftW. cbn [fst snd]. rewrite H. reflexivity. Qed.
  Lemma attr_ev : forall get (w : Wd) s p a, get s = Some a -> attr get ((w, s), p) = (Ok a, ((w, s), p)).
  Proof. intros get w s p a H. unfold attr, mbind, onS, getS. cbn [fst snd]. rewrite H. reflexivity. Qed.

  Lemma sliced_ev : forall get (w : Wd) s p a, get s = Some a -> sliced get ((w, s), p) = (Ok a, ((w, s), p)).
  Proof. intros get w s p a H. unfold sliced, mbind, onS, getS. cbn [fst snd]. rewrite H. reflexivity. Qed.

  (** cell 9: the subspace and its bootstrap ranges *)
  Lemma computed : forall N m D nboot (w : Wd) s, (1 <= N)%nat -> (2 <= m)%nat -> shape D = [N; m] -> (0 < nboot)%Z ->
    exists w' e V B S A A2, ss_compute eigh argsort lstsq norm2 det None None (Some D) None "AS" "EVG" nboot (w, s) = (Ok tt, (w', Subs (Some e) (Some V) A A2 (Some B) (Some S))) /\
      forall XX y, shape y = [N; 2%nat] ->
        (forall i j, (i < N)%nat -> (j < 2)%nat -> y.[i, j] = sumf m (fun k => XX.[i, k] * V.[k, j])) ->
        subspace_of N m (Z.to_nat nboot) XX D e V B S y.
  Proof.
    intros N m D nboot w s HN Hm SD Hb.
    destruct (C53_gradient_method_returns eigh argsort lstsq norm2 det G U N m D None "EVG" nboot (w, s) HE HA HT HNm HD HN Hm SD I (or_introl eq_refl)) as ([w' s'] & H).
    destruct (C53_compute eigh argsort lstsq norm2 det G U None None (Some D) None "AS" "EVG" nboot _ _ HE HA HNm HD (no_inputs _) H)
      as (M & m' & e & V & n & A & w1 & S0 & HM & E1 & E2 & _). rewrite SD in S0. injection S0 as <- <-.
    destruct (C19_compute_stores_ranges eigh argsort lstsq norm2 det G U _ _ _ _ _ _ _ _ _ HE HA H) as (_ & HS).
    destruct (HS Hb) as (M' & m' & e' & V' & B & S & li & w2 & w3 & S0 & EB & ES & E1' & E2' & HB). cbn [snd] in *.
    rewrite SD in S0. injection S0 as <- <-.
    assert (e' = e) by congruence. assert (V' = V) by congruence. subst e' V'. clear E1' E2'.
    assert (PA : principal_axes N m (fun i j => D.[i, j]) e V).
    { unfold ssmethod in HM. cbn [String.eqb Ascii.eqb Bool.eqb] in HM. unfold mlift in HM. injection HM as HM _.
      apply (principal eigh argsort N m D (mk2 N 1 (fun _ _ => / INR N)) e V HE HA HN SD); [reflexivity| |exact HM]. intros i Hi. now rewrite at_mk2 by (auto; lia). }
    destruct PA as (P1 & P2 & P3 & P4).
    destruct (C19_bootstrap_ranges eigh argsort lstsq norm2 det G U "AS" e V None None (Some D) _ (Z.to_nat nboot) _ B S li _ m
      HE HA HNm HD ltac:(lia) P2 P3 (ncols_shape2 _ D N m SD) HB) as (SB & SS & _ & eb & Vb & dist & R1 & R2 & R3 & R4 & _).
    exists w', e, V, B, S, (s_W1 s'), (s_W2 s'). split.
    { rewrite H. f_equal. f_equal. destruct s' as [q1 q2 q3 q4 q5 q6]. cbn [s_eigenvals s_eigenvecs s_W1 s_W2 s_e_br s_sub_br snd] in *. subst. reflexivity. }
    intros XX y Sy Vy. split; [exact (conj P1 (conj P2 (conj P3 P4)))|]. split; [exact SB|]. split; [exact SS|]. split; [|split; [exact Sy|exact Vy]].
    (* the resampled rows *)
    assert (RI : forall b, (b < Z.to_nat nboot)%nat -> exists ind : nat -> nat, (forall i, (i < N)%nat -> (ind i < N)%nat) /\
       principal_axes N m (fun i j => D.[ind i, j]) (eb b) (Vb b)).
    { intros b Hbb. destruct (R1 b Hbb) as (ind & X0 & f0 & df0 & w0 & wa & wb & Li & _ & _ & (D0 & -> & RD) & RW & HM0).
      exists (fun i => nth i ind 0%nat).
      destruct RD as (r & c & SD' & SD0 & Fi & VD). rewrite SD in SD'. injection SD' as <- <-.
      destruct RW as (r' & c' & SW' & SW0 & _ & VW).
      assert (LN : List.length ind = N) by (rewrite Li; reflexivity).
      rewrite LN in *. split.
      { intros i Hi. rewrite Forall_forall in Fi. apply Fi, nth_In. lia. }
      unfold ssmethod in HM0. cbn [String.eqb Ascii.eqb Bool.eqb] in HM0. unfold mlift in HM0. injection HM0 as HM0 _.
      assert (PB : principal_axes N m (fun i j => D0.[i, j]) (eb b) (Vb b)).
      { apply (principal eigh argsort N m D0 w0 _ _ HE HA HN SD0); [| |exact HM0].
        - rewrite SW0. f_equal. f_equal. change ([N; 1%nat] = [r'; c']) in SW'. congruence.
        - intros i Hi. change ([N; 1%nat] = [r'; c']) in SW'. injection SW' as <- <-. rewrite VW by lia. reflexivity. }
      destruct PB as (Q1 & Q2 & Q3 & Q4 & Q5 & Q6). repeat split; auto; try apply Q4; auto.
      intros i k Hi Hk. rewrite <- Q6 by auto. f_equal. apply sumf_ext. intros t Ht. now rewrite !VD by auto. }
    apply (finite_choice (nat -> nat) (fun _ => 0%nat)) in RI. destruct RI as (ind & RI).
    exists ind, eb, Vb, dist. split; [exact RI|]. split; [exact R2|]. split.
    { intros j Hj. destruct (R3 j Hj) as (K1 & (b1 & Hb1 & K2) & (b2 & Hb2 & K3)).
      split; (split; [intros b Hbb; apply (K1 b Hbb)|]); [exists b1 | exists b2]; auto. }
    intros j Hj. destruct (R4 j Hj) as (K1 & (b1 & Hb1 & K2) & (b2 & Hb2 & K3) & K4 & K5 & K6).
    split; [split; [intros b Hbb; apply (K1 b Hbb)|exists b1; auto]|]. split.
    { rewrite <- K4. field. apply not_0_INR. lia. }
    split; [split; [intros b Hbb; apply (K1 b Hbb)|exists b2; auto]|]. auto.
  Qed.

  Lemma ranges_ordered : forall N m nb XX D e V B S y, (1 <= nb)%nat -> subspace_of N m nb XX D e V B S y ->
    (forall j, (j < m)%nat -> 0 <= B.[j, 0%nat] <= B.[j, 1%nat]) /\
    (forall j, (j < m - 1)%nat -> 0 <= S.[j, 0%nat] <= S.[j, 1%nat] /\ S.[j, 1%nat] <= S.[j, 2%nat] <= 1).
  Proof.
    intros N m nb XX D e V B S y Hnb (_ & _ & _ & (ind & eb & Vb & dist & R1 & _ & R3 & R4) & _). split.
    - intros j Hj. destruct (R3 j Hj) as ((L1 & b1 & Hb1 & L2) & (G1 & _)).
      destruct (R1 b1 Hb1) as (_ & _ & _ & _ & Q & _). destruct (Q j Hj) as (_ & Q'). specialize (G1 b1 Hb1). cbv beta in L2, G1. lra.
    - intros j Hj. destruct (R4 j Hj) as (_ & _ & _ & Q). exact Q.
  Qed.

  (** cells 9 and 11 *)
  Lemma analyse_ev : forall N m nboot labels XX F D (w : Wd) s p, (1 <= N)%nat -> (2 <= m)%nat -> (0 < nboot)%Z ->
    shape XX = [N; m] -> shape F = [N; 1%nat] -> shape D = [N; m] ->
    exists e V B S y f1 f2 f3 f4 f5 ws' p', analyse eigh argsort lstsq norm2 det nboot labels XX F D ((w, s), p) = (Ok y, (ws', p')) /\
      subspace_of N m (Z.to_nat nboot) XX D e V B S y /\
      displays p p' [f1; f2; f3; f4; f5] [("figs/evals_Output.eps", f1); ("figs/subspace_Output.eps", f2); ("figs/evecs_Output.eps", f3);
        ("figs/ssp1_Output.eps", f4); ("figs/ssp2_Output.eps", f5)]%string /\
      values_drawn m e B f1 /\ errors_drawn (m - 1) S f2 /\ vectors_drawn m 2 0 V labels f3 /\ summary_drawn N y F f4 f5.
  Proof.
    intros N m nboot labels XX F D w s p HN Hm Hb SX SF SD.
    destruct (computed N m D nboot w subs_new HN Hm SD Hb) as (w' & e & V & B & S & A & A2 & EC & HS).
    pose proof (HS XX (mk2 N 2 (fun i j => sumf m (fun k => XX.[i, k] * V.[k, j]))) eq_refl (fun i j _ _ => eq_refl)) as SO.
    assert (Hnb : (1 <= Z.to_nat nboot)%nat) by lia.
    destruct (ranges_ordered _ _ _ _ _ _ _ _ _ _ Hnb SO) as (RB & RS).
    destruct SO as ((Se & SV & HO & _) & SB & SS & _).
    assert (SC : shape (cols_slice V 0 2) = [m; 2%nat]).
    { unfold cols_slice. rewrite (nrows_shape2 _ V m m SV), (ncols_shape2 _ V m m SV). cbn [shape mk2]. do 2 f_equal. lia. }
    destruct (npdot2_ex XX (cols_slice V 0 2) N m 2 SX SC) as (y & Ey & Sy & Vy).
    destruct (evals_drawn e B m 2 p Se ltac:(lia) SB ltac:(lia) RB) as (f1 & p1 & E1 & D1 & F1).
    destruct (C63_subspace_errors S (m - 1) 3 None None p1 SS ltac:(lia) ltac:(lia) RS I) as (f2 & p2 & E2 & D2 & F2a & F2b & _ & _ & lo2 & F2w & _ & _ & F2v). pose proof (some_window _ _ _ _ F2w F2v) as F2c.
    destruct (vectors_ev m 2 0 2 V labels p2 SV ltac:(lia) ltac:(lia) ltac:(lia) HO) as (f3 & p3 & E3 & D3 & F3).
    destruct (C65_summary_partial y F N 2 None None p3 Sy SF ltac:(lia) I) as (_ & H65 & _).
    destruct (H65 eq_refl) as (f4 & f5 & p4 & E4 & D4 & F4 & _ & F5 & _).
    exists e, V, B, S, y, f1, f2, f3, f4, f5. eexists _, p4. split.
    { unfold analyse.
      erewrite nb by (apply onS_ev; reflexivity).
      erewrite nb by (apply onS_ev; exact EC).
      erewrite nb by (apply attr_ev; reflexivity). erewrite nb by (apply onS_ev; reflexivity). cbn [snd s_e_br].
      erewrite nb by (apply onP_ev; exact E1).
      erewrite nb by (apply attr_ev; reflexivity).
      erewrite nb by (apply onP_ev; exact E2).
      erewrite nb.
      2: { apply onS_ev. unfold ss_partition, mbind, getS. cbn [snd s_eigenvecs]. rewrite (nrows_shape2 _ V m m SV).
           destruct (Z.ltb_spec 2 1); [lia|]. destruct (Z.ltb_spec (Z.of_nat m) 2); [lia|]. cbn [orb]. reflexivity. }
      erewrite nb by (apply attr_ev; reflexivity).
      change (Z.to_nat 2) with 2%nat. rewrite Ey.
      erewrite (nb (mlift (Ok y))) by reflexivity.
      erewrite nb by (apply onP_ev; exact E3).
      erewrite nb by (apply onP_ev; exact E4). reflexivity. }
    split. { apply HS; [exact Sy|]. intros i j Hi Hj. rewrite Vy. reflexivity. }
    split. { exact (displays_trans _ _ _ _ _ _ _ (displays_trans _ _ _ _ _ _ _ (displays_trans _ _ _ _ _ _ _ D1 D2) D3) D4). }
    split; [exact F1|]. split; [exact (conj F2a (conj F2b F2c))|]. split; [exact F3|]. split; [exact F4|exact F5].
  Qed.

  (** without bootstrap *)
  Lemma analyse_plain : forall N m nboot labels XX F D (w : Wd) s p, (1 <= N)%nat -> (2 <= m)%nat -> (nboot <= 0)%Z -> shape D = [N; m] ->
    (exists e V f1 ws' p', principal_axes N m (fun i j => D.[i, j]) e V /\
       analyse eigh argsort lstsq norm2 det nboot labels XX F D ((w, s), p) = (Err AttributeError, (ws', p')) /\
       displays p p' [f1] [("figs/evals_Output.eps", f1)]%string /\ lines_of f1 = [curve_pts m (fun i => e.[i, 0%nat])] /\ bands_of f1 = []) /\
    (exists ws', analyse_robot eigh argsort lstsq norm2 det nboot labels XX F D ((w, s), p) = (Err TypeError, (ws', p))).
  Proof.
    intros N m D0 labels XX F D w s p HN Hm Hb SD. set (nboot := D0) in *. clearbody nboot. clear D0.
    destruct (C53_gradient_method_returns eigh argsort lstsq norm2 det G U N m D None "EVG" nboot (w, subs_new) HE HA HT HNm HD HN Hm SD I (or_introl eq_refl)) as ([w' s'] & H).
    destruct (C53_compute eigh argsort lstsq norm2 det G U None None (Some D) None "AS" "EVG" nboot _ _ HE HA HNm HD (no_inputs _) H)
      as (M & m' & e & V & n & A & w1 & S0 & HM & E1 & E2 & _). rewrite SD in S0. injection S0 as <- <-.
    destruct (C19_compute_stores_ranges eigh argsort lstsq norm2 det G U _ _ _ _ _ _ _ _ _ HE HA H) as (HS & _).
    destruct (HS Hb) as (N1 & N2). cbn [snd fst] in *.
    assert (PA : principal_axes N m (fun i j => D.[i, j]) e V).
    { unfold ssmethod in HM. cbn [String.eqb Ascii.eqb Bool.eqb] in HM. unfold mlift in HM. injection HM as HM _.
      apply (principal eigh argsort N m D (mk2 N 1 (fun _ _ => / INR N)) e V HE HA HN SD); [reflexivity| |exact HM]. intros i Hi. now rewrite at_mk2 by (auto; lia). }
    split.
    - destruct PA as (P1 & P2 & P3 & P4).
      destruct (C63_eigenvalues e m None None None p P1 ltac:(lia) (fun i Hi => proj2 (proj1 P4 i Hi)) I I) as (f1 & p1 & X1 & X2 & X3 & X4 & _).
      exists e, V, f1. eexists _, p1. split; [exact (conj P1 (conj P2 (conj P3 P4)))|]. split; [|split; [exact X2|split; [exact X3|exact X4]]].
      unfold analyse. erewrite nb by (apply onS_ev; reflexivity). erewrite nb by (apply onS_ev; exact H).
      erewrite nb by (apply attr_ev; exact E1). erewrite nb by (apply onS_ev; reflexivity). cbn [snd]. rewrite N1.
      erewrite nb by (apply onP_ev; exact X1).
      unfold mbind at 1. unfold attr, mbind, onS, getS. cbn [fst snd]. rewrite N2. reflexivity.
    - eexists. unfold analyse_robot. erewrite nb by (apply onS_ev; reflexivity). erewrite nb by (apply onS_ev; exact H).
      erewrite nb by (apply sliced_ev; exact E1).
      unfold mbind at 1. unfold sliced, mbind, onS, getS. cbn [fst snd]. rewrite N1. reflexivity.
  Qed.

  (** robot's cells 9 and 11 *)
  Lemma analyse_robot_ev : forall N nboot labels XX F D (w : Wd) s p, (1 <= N)%nat -> (0 < nboot)%Z ->
    shape XX = [N; 8%nat] -> shape F = [N; 1%nat] -> shape D = [N; 8%nat] ->
    exists e V B S y f1 f2 f3 f4 f5 f6 ws' p', analyse_robot eigh argsort lstsq norm2 det nboot labels XX F D ((w, s), p) = (Ok y, (ws', p')) /\
      subspace_of N 8 (Z.to_nat nboot) XX D e V B S y /\
      displays p p' [f1; f2; f3; f4; f5; f6] [("figs/evals_Output.eps", f1); ("figs/subspace_Output.eps", f2); ("figs/evecs_Output.eps", f3);
        ("figs/evecs_Output.eps", f4); ("figs/ssp1_Output.eps", f5); ("figs/ssp2_Output.eps", f6)]%string /\
      values_drawn 7 e B f1 /\ errors_drawn 6 S f2 /\ vectors_drawn 8 4 0 V labels f3 /\ vectors_drawn 8 4 4 V labels f4 /\
      summary_drawn N y F f5 f6.
  Proof.
    intros N nboot labels XX F D w s p HN Hb SX SF SD.
    destruct (computed N 8 D nboot w subs_new HN ltac:(lia) SD Hb) as (w' & e & V & B & S & A & A2 & EC & HS).
    pose proof (HS XX (mk2 N 2 (fun i j => sumf 8 (fun k => XX.[i, k] * V.[k, j]))) eq_refl (fun i j _ _ => eq_refl)) as SO.
    assert (Hnb : (1 <= Z.to_nat nboot)%nat) by lia.
    destruct (ranges_ordered _ _ _ _ _ _ _ _ _ _ Hnb SO) as (RB & RS).
    destruct SO as ((Se & SV & HO & _) & SB & SS & _).
    assert (SC : shape (cols_slice V 0 2) = [8%nat; 2%nat]).
    { unfold cols_slice. rewrite (nrows_shape2 _ V 8 8 SV), (ncols_shape2 _ V 8 8 SV). reflexivity. }
    assert (SR : forall k a c (X : nd R), shape X = [a; c] -> (k <= a)%nat -> shape (rows_to k X) = [k; c]).
    { intros k a c X HX Hk. unfold rows_to. rewrite (nrows_shape2 _ X a c HX), (ncols_shape2 _ X a c HX). cbn [shape mk2]. do 2 f_equal. lia. }
    destruct (npdot2_ex XX (cols_slice V 0 2) N 8 2 SX SC) as (y & Ey & Sy & Vy).
    destruct (evals_drawn (rows_to 7 e) (rows_to 7 B) 7 2 p (SR 7%nat 8%nat 1%nat e Se ltac:(lia)) ltac:(lia) (SR 7%nat 8%nat 2%nat B SB ltac:(lia)) ltac:(lia)
      (fun i Hi => RB i ltac:(lia))) as (f1 & p1 & E1 & D1 & F1).
    destruct (C63_subspace_errors (rows_to 6 S) 6 3 None None p1 (SR 6%nat 7%nat 3%nat S SS ltac:(lia)) ltac:(lia) ltac:(lia) (fun i Hi => RS i ltac:(lia)) I)
      as (f2 & p2 & E2 & D2 & F2a & F2b & _ & _ & lo2 & F2w & _ & _ & F2v). pose proof (some_window _ _ _ _ F2w F2v) as F2c.
    destruct (vectors_ev 8 4 0 4 V labels p2 SV ltac:(lia) ltac:(lia) ltac:(lia) HO) as (f3 & p3 & E3 & D3 & F3).
    destruct (vectors_ev 8 4 4 8 V labels p3 SV ltac:(lia) ltac:(lia) ltac:(lia) HO) as (f4 & p4 & E4 & D4 & F4).
    destruct (C65_summary_partial y F N 2 None None p4 Sy SF ltac:(lia) I) as (_ & H65 & _).
    destruct (H65 eq_refl) as (f5 & f6 & p5 & E5 & D5 & F5 & _ & F6 & _).
    exists e, V, B, S, y, f1, f2, f3, f4, f5, f6. eexists _, p5. split.
    { unfold analyse_robot.
      erewrite nb by (apply onS_ev; reflexivity).
      erewrite nb by (apply onS_ev; exact EC).
      erewrite nb by (apply sliced_ev; reflexivity). erewrite nb by (apply sliced_ev; reflexivity).
      erewrite nb by (apply onP_ev; exact E1).
      erewrite nb by (apply sliced_ev; reflexivity).
      erewrite nb by (apply onP_ev; exact E2).
      erewrite nb.
      2: { apply onS_ev. unfold ss_partition, mbind, getS. cbn [snd s_eigenvecs]. rewrite (nrows_shape2 _ V 8 8 SV). reflexivity. }
      erewrite nb by (apply attr_ev; reflexivity).
      change (Z.to_nat 2) with 2%nat. rewrite Ey.
      erewrite (nb (mlift (Ok y))) by reflexivity.
      erewrite nb by (apply sliced_ev; reflexivity).
      erewrite nb by (apply onP_ev; exact E3).
      erewrite nb by (apply sliced_ev; reflexivity). rewrite (ncols_shape2 _ V 8 8 SV).
      erewrite nb by (apply onP_ev; exact E4).
      erewrite nb by (apply onP_ev; exact E5). reflexivity. }
    split. { apply HS; [exact Sy|]. intros i j Hi Hj. rewrite Vy. reflexivity. }
    split. { exact (displays_trans _ _ _ _ _ _ _ (displays_trans _ _ _ _ _ _ _ (displays_trans _ _ _ _ _ _ _ (displays_trans _ _ _ _ _ _ _ D1 D2) D3) D4) D5). }
    split; [exact F1|]. split; [exact (conj F2a (conj F2b F2c))|]. split; [exact F3|]. split; [exact F4|]. split; [exact F5|exact F6].
  Qed.

  (** cell 3: a column per input *)
  Lemma cols_ev : forall {A} (g : A -> M NB (nd R)) (lo hi : A -> R) N (box : list A) (w : Wd) s p,
    (forall a, g a = onW (uniform2 (lo a) (hi a) N 1)) ->
    exists cs, mmap g box ((w, s), p) = (Ok cs, ((set_rng w (unif_state (N * List.length box) (rng w)), s), p)) /\
      List.length cs = List.length box /\ (forall c, In c cs -> shape c = [N; 1%nat]) /\
      forall i j d a, (i < N)%nat -> (j < List.length box)%nat ->
        (nth j cs d).[i, 0%nat] = lo (nth j box a) + (hi (nth j box a) - lo (nth j box a)) * unif_at (rng w) (j * N + i).
  Proof.
    intros A g lo hi N box w s p Hg. revert w. induction box as [|b box IH]; intros w.
    - exists []. split; [|split; [reflexivity|split; [intros c []|intros i j d a _ Hj; simpl in Hj; lia]]].
      cbn [mmap List.length]. rewrite Nat.mul_0_r. cbn [unif_state]. destruct w; reflexivity.
    - cbn [mmap]. rewrite Hg.
      destruct (uniform2_ev G (lo b) (hi b) N 1 w) as (X & E & SX & VX).
      erewrite nb by (apply onW_ev; exact E).
      destruct (IH (set_rng w (unif_state (N * 1) (rng w)))) as (cs & E2 & L2 & S2 & V2).
      erewrite nb by exact E2. exists (X :: cs). split.
      { unfold mret. f_equal. f_equal. f_equal. unfold set_rng. cbn [rng usr calls files]. f_equal.
        rewrite <- unif_state_add. f_equal. cbn [List.length]. lia. }
      split; [cbn [List.length]; now rewrite L2|]. split; [intros c [<-|Hc]; auto|].
      intros i j d a Hi Hj. destruct j as [|j].
      + cbn [nth]. rewrite VX by lia. f_equal. f_equal. f_equal. lia.
      + cbn [nth List.length] in *. rewrite (V2 i j d a Hi) by lia. f_equal. f_equal. cbn [set_rng rng]. rewrite unif_at_add. f_equal. lia.
  Qed.
  Lemma sample_cols : forall N box (w : Wd) s p, box <> [] ->
    exists X, sample N (map (fun b => (fst b, snd b, 1%nat)) box) ((w, s), p) = (Ok X, ((set_rng w (unif_state (N * List.length box) (rng w)), s), p)) /\
      shape X = [N; List.length box] /\
      forall i j, (i < N)%nat -> (j < List.length box)%nat ->
        X.[i, j] = fst (nth j box (0, 1)) + (snd (nth j box (0, 1)) - fst (nth j box (0, 1))) * unif_at (rng w) (j * N + i).
  Proof.
    intros N box w s p Hne. set (boxes := map (fun b : R * R => (fst b, snd b, 1%nat)) box).
    assert (LB : List.length boxes = List.length box) by (unfold boxes; now rewrite map_length).
    unfold sample.
    assert (EB : mmap (fun b : R * R * nat => let (y, k) := b in let (lo, hi) := y in onW (uniform2 lo hi N k)) boxes ((w, s), p) =
                 mmap (fun b : R * R * nat => onW (uniform2 (fst (fst b)) (snd (fst b)) N 1)) boxes ((w, s), p)).
    { clear Hne LB. revert w. unfold boxes. clear boxes. induction box as [|b box IH]; intros w; [reflexivity|].
      cbn [map mmap]. unfold mbind. cbn [fst snd]. destruct (onW (uniform2 (fst b) (snd b) N 1) (w, s, p)) as [[x|x] [[w' s'] p']] eqn:E; [|reflexivity].
      assert (s' = s /\ p' = p).
      { destruct (uniform2_ev G (fst b) (snd b) N 1 w) as (X & E' & _). rewrite (onW_ev _ _ s p _ _ E') in E. split; congruence. }
      destruct H as (-> & ->). rewrite IH. reflexivity. }
    destruct (cols_ev (fun b : R * R * nat => onW (uniform2 (fst (fst b)) (snd (fst b)) N 1)) (fun b => fst (fst b)) (fun b => snd (fst b)) N boxes w s p (fun _ => eq_refl))
      as (cs & E & L & SC & VC).
    rewrite (nb _ _ _ _ _ (eq_trans EB E)). rewrite LB in *.
    assert (cs <> []). { intros ->. destruct box; [contradiction|discriminate]. }
    destruct (hstack_all_cols N cs (mk2 0 0 (fun _ _ => 0)) H SC) as (Z & EZ & SZ & VZ). exists Z.
    split; [unfold mlift; now rewrite EZ|]. rewrite L in *. split; [exact SZ|]. intros i j Hi Hj.
    rewrite VZ by auto. rewrite (VC i j _ (0, 1, 1%nat) Hi Hj).
    unfold boxes. change (0, 1, 1%nat) with ((fun b : R * R => (fst b, snd b, 1%nat)) (0, 1)). rewrite map_nth. reflexivity.
  Qed.
  (** robot's cell 3: four angles, then four lengths *)
  Lemma sample_robot : forall N (w : Wd) s p,
    exists X, sample N [(0, 2 * PI, 4%nat); (0, 1, 4%nat)] ((w, s), p) = (Ok X, ((set_rng w (unif_state (N * 8) (rng w)), s), p)) /\
      shape X = [N; 8%nat] /\
      forall i j, (i < N)%nat -> (j < 8)%nat ->
        X.[i, j] = fst (nth j robot_box (0, 1)) + (snd (nth j robot_box (0, 1)) - fst (nth j robot_box (0, 1))) *
          unif_at (rng w) (if Nat.ltb j 4 then i * 4 + j else 4 * N + i * 4 + (j - 4)).
  Proof.
    intros N w s p. unfold sample. cbn [mmap].
    destruct (uniform2_ev G 0 (2 * PI) N 4 w) as (X & E & SX & VX).
    destruct (uniform2_ev G 0 1 N 4 (set_rng w (unif_state (N * 4) (rng w)))) as (Y & E2 & SY & VY).
    erewrite nb.
    2: { erewrite nb by (apply onW_ev; exact E). erewrite nb by (erewrite nb by (apply onW_ev; exact E2); erewrite nb by reflexivity; reflexivity). reflexivity. }
    destruct (hstack2 X Y N 4 4 SX SY) as (Z & EZ & SZ & VZ). exists Z.
    split. { unfold mlift. cbn [hstack_all fold_left rbind]. rewrite EZ. f_equal. f_equal. f_equal. unfold set_rng. cbn [rng usr calls files]. f_equal.
      rewrite <- unif_state_add. f_equal. lia. }
    split; [exact SZ|]. intros i j Hi Hj. rewrite VZ. destruct (Nat.ltb_spec j 4).
    - rewrite VX by auto. unfold robot_box. do 4 (destruct j as [|j]; [reflexivity|]). lia.
    - rewrite VY by lia. cbn [set_rng rng]. rewrite unif_at_add. replace (N * 4 + (i * 4 + (j - 4)))%nat with (4 * N + i * 4 + (j - 4))%nat by lia.
      unfold robot_box. do 8 (destruct j as [|j]; [try lia; reflexivity|]). lia.
  Qed.
End Run.

(** the inputs x are drawn in the box, input (i,j) with the draw number (draw i j) of
    numpy's stream; XX are the same points in [-1,1]^m; F holds the values of the
    function, as [good] says, and D its gradient with respect to the normalized
    inputs, at the points that are [ok] *)
Definition study {G : gen} (fn : nd R -> res (nd R)) (box : list (R * R)) (draw : nat -> nat -> nat)
    (good : (nat -> R) -> R -> Prop) (ok : (nat -> R) -> Prop) (N : nat) (s : gst G) (r : results) : Prop :=
  let m := List.length box in let lo := fun j => fst (nth j box (0, 1)) in let hi := fun j => snd (nth j box (0, 1)) in
  shape (r_x r) = [N; m] /\
  (forall i j, (i < N)%nat -> (j < m)%nat -> (r_x r).[i, j] = lo j + (hi j - lo j) * unif_at s (draw i j)) /\
  shape (r_XX r) = [N; m] /\
  (forall i j, (i < N)%nat -> (j < m)%nat -> (r_x r).[i, j] = lo j + (hi j - lo j) / 2 * ((r_XX r).[i, j] + 1) /\ -1 <= (r_XX r).[i, j] < 1) /\
  fn (r_XX r) = Ok (r_f r) /\ shape (r_f r) = [N; 1%nat] /\ (forall i, (i < N)%nat -> good (fun j => (r_x r).[i, j]) ((r_f r).[i, 0%nat])) /\
  shape (r_df r) = [N; m] /\
  (forall i j, (i < N)%nat -> (j < m)%nat -> ok (fun j => (r_XX r).[i, j]) ->
     derivable_pt_lim (fun t => out (fn (put (r_XX r) N m i j t)) i) ((r_XX r).[i, j]) ((r_df r).[i, j])).

(** the analysis with its five figures and files *)
Definition analysed (N m nb : nat) (labels : list string) (r : results) (p p' : pyplot) : Prop :=
  exists e V B S f1 f2 f3 f4 f5, subspace_of N m nb (r_XX r) (r_df r) e V B S (r_y r) /\
    displays p p' [f1; f2; f3; f4; f5] [("figs/evals_Output.eps", f1); ("figs/subspace_Output.eps", f2); ("figs/evecs_Output.eps", f3);
      ("figs/ssp1_Output.eps", f4); ("figs/ssp2_Output.eps", f5)]%string /\
    values_drawn m e B f1 /\ errors_drawn (m - 1) S f2 /\ vectors_drawn m 2 0 V labels f3 /\ summary_drawn N (r_y r) (r_f r) f4 f5.

Lemma same_value : forall (inp : nd R -> res (nd R)) (row : (nat -> R) -> R) k tr (f : nd R -> res (nd R)),
  (forall M X, shape X = [M; k] -> exists Y, inp X = Ok Y /\ shape Y = [M; k] /\ forall i j, (i < M)%nat -> (j < k)%nat -> Y.[i, j] = tr j (X.[i, j])) ->
  (forall r r', (forall b, (b < k)%nat -> r b = r' b) -> row r = row r') ->
  (forall X, f X = (do x <- inp (np_atleast_2d X); Ok (value_col row x))) ->
  forall M X X' F F', shape X = [M; k] -> shape X' = [M; k] -> (forall i j, (i < M)%nat -> (j < k)%nat -> X.[i, j] = X'.[i, j]) ->
    f X = Ok F -> f X' = Ok F' -> forall i, (i < M)%nat -> F.[i, 0%nat] = F'.[i, 0%nat].
Proof.
  intros inp row k tr f Hi Hr Hf M X X' F F' S S' E H H' i Hlt.
  destruct (f_ok inp row k tr Hi Hr f Hf M X S) as (F1 & E1 & _ & V1). destruct (f_ok inp row k tr Hi Hr f Hf M X' S') as (F2 & E2 & _ & V2).
  rewrite E1 in H. rewrite E2 in H'. injection H as <-. injection H' as <-. rewrite V1, V2 by auto. apply Hr. intros b Hb. now rewrite E.
Qed.
Lemma box_same : forall xl xu row f, List.length xu = List.length xl ->
  (forall r r', (forall b, (b < List.length xl)%nat -> r b = r' b) -> row r = row r') ->
  (forall X, f X = (do x <- unnorm xl xu (np_atleast_2d X); Ok (value_col row x))) ->
  forall M X X' F F', shape X = [M; List.length xl] -> shape X' = [M; List.length xl] ->
    (forall i j, (i < M)%nat -> (j < List.length xl)%nat -> X.[i, j] = X'.[i, j]) ->
    f X = Ok F -> f X' = Ok F' -> forall i, (i < M)%nat -> F.[i, 0%nat] = F'.[i, 0%nat].
Proof.
  intros xl xu row f L Hr Hf. apply (same_value (unnorm xl xu) row (List.length xl) (affine_tr xl xu) f); auto.
  intros M X HX. destruct (unnorm_ok xl xu X M L HX) as (Y & Y1 & Y2 & Y3). exists Y. auto.
Qed.

Section Uniform.
  Context {G : gen} {U : Type}.
  Notation Wd := (world G U (nd R)).
  Lemma uniform_ev : forall boxes (box : list (R * R)) draw fn grad row xl xu (good : (nat -> R) -> R -> Prop) (ok : (nat -> R) -> Prop)
      (cells : nd R -> nd R -> nd R -> M ((Wd * subspaces) * pyplot) (nd R)) N (w : Wd) s p (Q : results -> pyplot -> Prop),
    (forall j, (j < List.length box)%nat -> fst (nth j box (0, 1)) < snd (nth j box (0, 1))) ->
    (exists x w1, sample N boxes ((w, s), p) = (Ok x, ((w1, s), p)) /\ shape x = [N; List.length box] /\
      forall i j, (i < N)%nat -> (j < List.length box)%nat ->
        x.[i, j] = fst (nth j box (0, 1)) + (snd (nth j box (0, 1)) - fst (nth j box (0, 1))) * unif_at (rng w) (draw i j)) ->
    xl = map fst box -> xu = map snd box ->
    (forall r r', (forall b, (b < List.length xl)%nat -> r b = r' b) -> row r = row r') ->
    (forall X, fn X = (do x <- unnorm xl xu (np_atleast_2d X); Ok (value_col row x))) ->
    is_gradient fn grad (List.length box) all_cols (fun x => in_cube (List.length box) x /\ ok x) ->
    (forall P, exists F, fn (scaled box N P) = Ok F /\ forall i, (i < N)%nat -> within box (P i) -> good (P i) (F.[i, 0%nat])) ->
    (forall x XX F D w1, shape XX = [N; List.length box] -> shape F = [N; 1%nat] -> shape D = [N; List.length box] ->
       exists y ws' p', cells XX F D ((w1, s), p) = (Ok y, (ws', p')) /\ Q (Results x XX F D y) p') ->
    exists r ws' p', uniform_notebook boxes (map fst box) (map snd box) fn grad cells N ((w, s), p) = (Ok r, (ws', p')) /\
      study fn box draw good ok N (rng w) r /\ Q r p'.
  Proof.
    intros boxes box draw fn grad row xl xu good ok cells N w s p Q Hb (x & w1 & E1 & Sx & Vx) -> -> Hrow Hfn HG HV HC.
    destruct (norm_ok box x N Sx Hb) as (XX & E2 & SX & VX).
    destruct (HG N XX SX) as (F & D & E3 & SF & E4 & SD & HF).
    destruct (HC x XX F D w1 SX SF SD) as (y & ws' & p' & E5 & HQ).
    exists (Results x XX F D y), ws', p'. split.
    { unfold uniform_notebook. erewrite nb by exact E1. rewrite E2. erewrite (nb (mlift (Ok XX))) by reflexivity.
      rewrite E3. erewrite (nb (mlift (Ok F))) by reflexivity. rewrite E4. erewrite (nb (mlift (Ok D))) by reflexivity.
      erewrite nb by exact E5. reflexivity. }
    split; [|exact HQ]. unfold study. cbn [r_x r_XX r_f r_df r_y].
    assert (UX : forall i j, (i < N)%nat -> (j < List.length box)%nat ->
      x.[i, j] = fst (nth j box (0, 1)) + (snd (nth j box (0, 1)) - fst (nth j box (0, 1))) / 2 * (XX.[i, j] + 1) /\ -1 <= XX.[i, j] < 1).
    { intros i j Hi Hj. specialize (Hb j Hj). split; [rewrite VX by auto; field; lra|].
      assert (EXX : XX.[i, j] = 2 * unif_at (rng w) (draw i j) - 1) by (rewrite VX, Vx by auto; field; lra).
      rewrite EXX. pose proof (unif_at_range G (rng w) (draw i j)). lra. }
    split; [exact Sx|]. split; [exact Vx|]. split; [exact SX|]. split; [exact UX|]. split; [exact E3|]. split; [exact SF|]. split.
    - intros i Hi. destruct (HV (fun i j => x.[i, j])) as (F' & E' & V').
      assert (FF : F.[i, 0%nat] = F'.[i, 0%nat]).
      { apply (box_same (map fst box) (map snd box) row fn ltac:(now rewrite !map_length) Hrow Hfn N XX (scaled box N (fun i j => x.[i, j])) F F'); auto.
        - now rewrite map_length.
        - now rewrite map_length.
        - rewrite map_length. intros a b Ha Hb'. rewrite VX by auto. unfold scaled. rewrite at_mk2. destruct (nth b box (0, 1)); reflexivity. }
      rewrite FF. apply (V' i Hi). intros j Hj. specialize (Hb j Hj). destruct (UX i j Hi Hj) as (U1 & U2).
      rewrite Vx by auto. pose proof (unif_at_range G (rng w) (draw i j)). nra.
    - split; [exact SD|]. intros i j Hi Hj Hok. destruct (HF i Hi) as (_ & HD). apply HD; auto; [|exact I].
      split; [|exact Hok]. intros k Hk. destruct (UX i k Hi Hk). lra.
  Qed.
End Uniform.

Ltac nums := cbn [map fst snd]; repeat (f_equal; try lra).

Theorem C96_circuit : forall eigh argsort lstsq norm2 det (G : gen) (U : Type) N nboot (w : world G U (nd R)) s p,
  eigh_contract eigh -> argsort_contract argsort -> eigh_total eigh -> norm2_contract norm2 -> det_contract det -> (1 <= N)%nat -> (0 < nboot)%Z ->
  exists r ws' p', circuit_notebook eigh argsort lstsq norm2 det N nboot ((w, s), p) = (Ok r, (ws', p')) /\
    study circuit circuit_box (fun i j => (j * N + i)%nat)
      (fun x V => V = midpoint_voltage (x 0%nat) (x 1%nat) (x 2%nat) (x 3%nat) (x 4%nat) (x 5%nat) /\ 0 < V) (fun _ => True) N (rng w) r /\
    analysed N 6 (Z.to_nat nboot) ["Rb1"; "Rb2"; "Rf"; "Rc1"; "Rc2"; "beta"]%string r p p'.
Proof.
  intros eigh argsort lstsq norm2 det G U N nboot w s p HE HA HT HN HD H1 Hb. unfold circuit_notebook.
  replace [50; 25; 5/10; 12/10; 25/100; 50] with (map fst circuit_box) by (unfold circuit_box; nums).
  replace [150; 70; 3; 25/10; 12/10; 300] with (map snd circuit_box) by (unfold circuit_box; nums).
  apply (uniform_ev _ circuit_box _ circuit circuit_grad circuit_row otl_xl otl_xu).
  - unfold circuit_box. box_ok.
  - destruct (sample_cols N circuit_box w s p ltac:(discriminate)) as (X & E & H). exists X. eexists. split; [|exact H].
    rewrite <- E. f_equal. f_equal. unfold circuit_box. nums.
  - unfold otl_xl, circuit_box. nums.
  - unfold otl_xu, circuit_box. nums.
  - unfold circuit_row, otl_xl. row_ext.
  - reflexivity.
  - intros M X HX. destruct (C57_circuit_grad M X HX) as (F & D & A1 & A2 & A3 & A4 & A5). exists F, D. repeat (split; [assumption|]).
    intros i Hi. destruct (A5 i Hi) as (B1 & B2). split; [exact B1|]. intros (Hc & _). auto.
  - intros P. destruct (C70_circuit N P) as (F & F1 & _ & F3 & _). exists F. split; [exact F1|exact F3].
  - intros x XX F D w1 SX SF SD.
    destruct (analyse_ev eigh argsort lstsq norm2 det HE HA HT HN HD N 6 nboot ["Rb1"; "Rb2"; "Rf"; "Rc1"; "Rc2"; "beta"]%string XX F D w1 s p H1 ltac:(lia) Hb SX SF SD)
      as (e & V & B & S & y & f1 & f2 & f3 & f4 & f5 & ws' & p' & E & H). exists y, ws', p'. split; [exact E|]. exists e, V, B, S, f1, f2, f3, f4, f5. exact H.
Qed.
Print Assumptions C96_circuit.

Theorem C96_piston : forall eigh argsort lstsq norm2 det (G : gen) (U : Type) N nboot (w : world G U (nd R)) s p,
  eigh_contract eigh -> argsort_contract argsort -> eigh_total eigh -> norm2_contract norm2 -> det_contract det -> (1 <= N)%nat -> (0 < nboot)%Z ->
  exists r ws' p', piston_notebook eigh argsort lstsq norm2 det N nboot ((w, s), p) = (Ok r, (ws', p')) /\
    study piston piston_box (fun i j => (j * N + i)%nat)
      (fun x C => exists V, 0 < V /\
        (let M0 := x 0%nat in let S := x 1%nat in let V0 := x 2%nat in let k := x 3%nat in let P0 := x 4%nat in let Ta := x 5%nat in let T0 := x 6%nat in
         P0 * V0 * Ta / (T0 * V) * S = P0 * S + 1962/100 * M0 + k * (V - V0) / S /\
         C = cycle_time V M0 S V0 k P0 Ta T0 /\ 0 < C)) (fun _ => True) N (rng w) r /\
    analysed N 7 (Z.to_nat nboot) ["M"; "S"; "V0"; "k"; "P0"; "Ta"; "T0"]%string r p p'.
Proof.
  intros eigh argsort lstsq norm2 det G U N nboot w s p HE HA HT HN HD H1 Hb. unfold piston_notebook.
  replace [30; 5/1000; 2/1000; 1000; 90000; 290; 340] with (map fst piston_box) by (unfold piston_box; nums).
  replace [60; 2/100; 1/100; 5000; 110000; 296; 360] with (map snd piston_box) by (unfold piston_box; nums).
  apply (uniform_ev _ piston_box _ piston piston_grad piston_row piston_xl piston_xu).
  - unfold piston_box. box_ok.
  - destruct (sample_cols N piston_box w s p ltac:(discriminate)) as (X & E & H). exists X. eexists. split; [|exact H].
    rewrite <- E. f_equal. f_equal. unfold piston_box. nums.
  - unfold piston_xl, piston_box. nums.
  - unfold piston_xu, piston_box. nums.
  - unfold piston_row, piston_xl. row_ext.
  - reflexivity.
  - intros M X HX. destruct (C58_piston_grad M X HX) as (F & D & A1 & A2 & A3 & A4 & A5). exists F, D. repeat (split; [assumption|]).
    intros i Hi. destruct (A5 i Hi) as (B1 & B2). split; [exact B1|]. intros (Hc & _). auto.
  - intros P. destruct (C70_piston N P) as (F & F1 & _ & F3). exists F. split; [exact F1|exact F3].
  - intros x XX F D w1 SX SF SD.
    destruct (analyse_ev eigh argsort lstsq norm2 det HE HA HT HN HD N 7 nboot ["M"; "S"; "V0"; "k"; "P0"; "Ta"; "T0"]%string XX F D w1 s p H1 ltac:(lia) Hb SX SF SD)
      as (e & V & B & S & y & f1 & f2 & f3 & f4 & f5 & ws' & p' & E & H). exists y, ws', p'. split; [exact E|]. exists e, V, B, S, f1, f2, f3, f4, f5. exact H.
Qed.
Print Assumptions C96_piston.

Theorem C96_wing : forall eigh argsort lstsq norm2 det (G : gen) (U : Type) N nboot (w : world G U (nd R)) s p,
  eigh_contract eigh -> argsort_contract argsort -> eigh_total eigh -> norm2_contract norm2 -> det_contract det -> (1 <= N)%nat -> (0 < nboot)%Z ->
  exists r ws' p', wing_notebook eigh argsort lstsq norm2 det N nboot ((w, s), p) = (Ok r, (ws', p')) /\
    study wing wing_box (fun i j => (j * N + i)%nat)
      (fun x W => W = wing_weight (x 0%nat) (x 1%nat) (x 2%nat) (x 3%nat) (x 4%nat) (x 5%nat) (x 6%nat) (x 7%nat) (x 8%nat) (x 9%nat) /\ 0 < W) (fun _ => True) N (rng w) r /\
    analysed N 10 (Z.to_nat nboot) ["Sw"; "Wfw"; "A"; "Lambda"; "q"; "lambda"; "tc"; "Nz"; "Wdg"; "Wp"]%string r p p'.
Proof.
  intros eigh argsort lstsq norm2 det G U N nboot w s p HE HA HT HN HD H1 Hb. unfold wing_notebook.
  replace [150; 220; 6; -10; 16; 5/10; 8/100; 25/10; 1700; 25/1000] with (map fst wing_box) by (unfold wing_box; nums).
  replace [200; 300; 10; 10; 45; 1; 18/100; 6; 2500; 8/100] with (map snd wing_box) by (unfold wing_box; nums).
  apply (uniform_ev _ wing_box _ wing wing_grad wing_row wing_xl wing_xu).
  - unfold wing_box. box_ok.
  - destruct (sample_cols N wing_box w s p ltac:(discriminate)) as (X & E & H). exists X. eexists. split; [|exact H].
    rewrite <- E. f_equal. f_equal. unfold wing_box. nums.
  - unfold wing_xl, wing_box. nums.
  - unfold wing_xu, wing_box. nums.
  - unfold wing_row, wing_Q, wing_xl. row_ext.
  - reflexivity.
  - intros M X HX. destruct (C60_wing_grad M X HX) as (F & D & A1 & A2 & A3 & A4 & A5). exists F, D. repeat (split; [assumption|]).
    intros i Hi. destruct (A5 i Hi) as (B1 & B2). split; [exact B1|]. intros (Hc & _). auto.
  - intros P. destruct (proj1 C70_wing N P) as (F & F1 & _ & F3). exists F. split; [exact F1|]. intros i Hi Hw. destruct (F3 i Hi Hw) as (K1 & K2 & _). auto.
  - intros x XX F D w1 SX SF SD.
    destruct (analyse_ev eigh argsort lstsq norm2 det HE HA HT HN HD N 10 nboot ["Sw"; "Wfw"; "A"; "Lambda"; "q"; "lambda"; "tc"; "Nz"; "Wdg"; "Wp"]%string XX F D w1 s p H1 ltac:(lia) Hb SX SF SD)
      as (e & V & B & S & y & f1 & f2 & f3 & f4 & f5 & ws' & p' & E & H). exists y, ws', p'. split; [exact E|]. exists e, V, B, S, f1, f2, f3, f4, f5. exact H.
Qed.
Print Assumptions C96_wing.

(** the robot's notebook saves two pictures of eigenvectors in the same file, and
    the second, of the eigenvectors 5 to 8, has the titles of 1 to 4 *)
Theorem C96_robot : forall eigh argsort lstsq norm2 det (G : gen) (U : Type) N nboot (w : world G U (nd R)) s p,
  eigh_contract eigh -> argsort_contract argsort -> eigh_total eigh -> norm2_contract norm2 -> det_contract det -> (1 <= N)%nat -> (0 < nboot)%Z ->
  let labels := ["t1"; "t2"; "t3"; "t4"; "L1"; "L2"; "L3"; "L4"]%string in
  exists r ws' p', robot_notebook eigh argsort lstsq norm2 det N nboot ((w, s), p) = (Ok r, (ws', p')) /\
    study robot robot_box (fun i j => if Nat.ltb j 4 then i * 4 + j else 4 * N + i * 4 + (j - 4))%nat
      (fun x d => d = sqrt (arm_x (fun k => x k) (fun k => x (4 + k)%nat) ^ 2 + arm_y (fun k => x k) (fun k => x (4 + k)%nat) ^ 2))
      (fun x => arm_end x <> (0, 0)) N (rng w) r /\
    exists e V B S f1 f2 f3 f4 f5 f6, subspace_of N 8 (Z.to_nat nboot) (r_XX r) (r_df r) e V B S (r_y r) /\
      displays p p' [f1; f2; f3; f4; f5; f6] [("figs/evals_Output.eps", f1); ("figs/subspace_Output.eps", f2); ("figs/evecs_Output.eps", f3);
        ("figs/evecs_Output.eps", f4); ("figs/ssp1_Output.eps", f5); ("figs/ssp2_Output.eps", f6)]%string /\
      values_drawn 7 e B f1 /\ errors_drawn 6 S f2 /\ vectors_drawn 8 4 0 V labels f3 /\ vectors_drawn 8 4 4 V labels f4 /\
      summary_drawn N (r_y r) (r_f r) f5 f6.
Proof.
  intros eigh argsort lstsq norm2 det G U N nboot w s p HE HA HT HN HD H1 Hb labels. unfold robot_notebook. pose proof PI_RGT_0 as PP.
  apply (uniform_ev _ robot_box _ robot robot_grad robot_row robot_xl robot_xu _ _ _ N w s p (fun r p' =>
    exists e V B S f1 f2 f3 f4 f5 f6, subspace_of N 8 (Z.to_nat nboot) (r_XX r) (r_df r) e V B S (r_y r) /\
      displays p p' [f1; f2; f3; f4; f5; f6] [("figs/evals_Output.eps", f1); ("figs/subspace_Output.eps", f2); ("figs/evecs_Output.eps", f3);
        ("figs/evecs_Output.eps", f4); ("figs/ssp1_Output.eps", f5); ("figs/ssp2_Output.eps", f6)]%string /\
      values_drawn 7 e B f1 /\ errors_drawn 6 S f2 /\ vectors_drawn 8 4 0 V labels f3 /\ vectors_drawn 8 4 4 V labels f4 /\
      summary_drawn N (r_y r) (r_f r) f5 f6)).
  - unfold robot_box. box_ok.
  - destruct (sample_robot N w s p) as (X & E & H). exists X. eexists. split; [exact E|exact H].
  - reflexivity.
  - reflexivity.
  - unfold robot_row, robot_u, robot_v, robot_xl. row_ext.
  - reflexivity.
  - intros M X HX. destruct (C61_robot_grad M X HX) as (F & D & A1 & A2 & A3 & A4 & A5). exists F, D. repeat (split; [assumption|]).
    intros i Hi. destruct (A5 i Hi) as (B1 & B2). split; [exact B1|]. intros (_ & Hc). auto.
  - intros P. destruct (C70_robot N P) as (F & F1 & _ & F3). exists F. split; [exact F1|]. intros i Hi _. destruct (F3 i Hi) as (K & _). exact K.
  - intros x XX F D w1 SX SF SD.
    destruct (analyse_robot_ev eigh argsort lstsq norm2 det HE HA HT HN HD N nboot labels XX F D w1 s p H1 Hb SX SF SD)
      as (e & V & B & S & y & f1 & f2 & f3 & f4 & f5 & f6 & ws' & p' & E & H). exists y, ws', p'. split; [exact E|]. exists e, V, B, S, f1, f2, f3, f4, f5, f6. exact H.
Qed.
Print Assumptions C96_robot.

(** one expects picture files to hold what the notebook drew: but of the two
    pictures of eigenvectors only the second is left in the end, with wrong titles *)
Definition file_now (name : string) (files : list (string * fig)) : option fig :=
  fold_left (fun a q => if String.eqb (fst q) name then Some (snd q) else a) files None.
Theorem C96_robot_files_refuted : forall eigh argsort lstsq norm2 det (G : gen) (U : Type) N nboot (w : world G U (nd R)) s,
  eigh_contract eigh -> argsort_contract argsort -> eigh_total eigh -> norm2_contract norm2 -> det_contract det -> (1 <= N)%nat -> (0 < nboot)%Z ->
  exists r ws' p' V f, robot_notebook eigh argsort lstsq norm2 det N nboot ((w, s), PP [] [] [] true) = (Ok r, (ws', p')) /\
    (exists e, principal_axes N 8 (fun i j => (r_df r).[i, j]) e V) /\
    file_now "figs/evecs_Output.eps" (p_files p') = Some f /\
    (* the panel titled "evec 1" shows the fifth eigenvector, which is not the first *)
    (let x := nth 0 (axes_of f) [] in titles_of x = ["Output, evec 1"%string] /\ lines_of x = [curve_pts 8 (fun i => V.[i, 4%nat])] /\
       curve_pts 8 (fun i => V.[i, 4%nat]) <> curve_pts 8 (fun i => V.[i, 0%nat])).
Proof.
  intros eigh argsort lstsq norm2 det G U N nboot w s HE HA HT HN HD H1 Hb.
  destruct (C96_robot eigh argsort lstsq norm2 det G U N nboot w s (PP [] [] [] true) HE HA HT HN HD H1 Hb)
    as (r & ws' & p' & E & _ & e & V & B & S & f1 & f2 & f3 & f4 & f5 & f6 & (SO & _) & (_ & _ & DF) & _ & _ & _ & (L & VD & _) & _).
  exists r, ws', p', V, f4. split; [exact E|]. split; [exists e; exact SO|]. split; [rewrite DF; reflexivity|].
  destruct (VD 0%nat ltac:(lia)) as (K1 & K2 & _). split; [exact K2|]. split; [exact K1|].
  intros C. destruct SO as (_ & _ & HO & _).
  pose proof (HO 0%nat 4%nat ltac:(lia) ltac:(lia)) as O1. pose proof (HO 4%nat 4%nat ltac:(lia) ltac:(lia)) as O2. cbn [Nat.eqb] in O1, O2.
  assert (Q : forall i, (i < 8)%nat -> V.[i, 4%nat] = V.[i, 0%nat]).
  { intros i Hi. unfold curve_pts in C. cbn [seq map] in C. injection C as C0 C1 C2 C3 C4 C5 C6 C7. do 8 (destruct i as [|i]; [assumption|]). lia. }
  rewrite (sumf_ext 8 _ (fun i => V.[i, 4%nat] * V.[i, 4%nat])) in O1; [lra|]. intros i Hi. now rewrite (Q i Hi).
Qed.
Print Assumptions C96_robot_files_refuted.

(** the borehole: two normal inputs before the uniform ones *)
Theorem C96_borehole : forall eigh argsort lstsq norm2 det (G : gen) (U : Type) N nboot (w : world G U (nd R)) s p,
  eigh_contract eigh -> argsort_contract argsort -> eigh_total eigh -> norm2_contract norm2 -> det_contract det -> (1 <= N)%nat -> (0 < nboot)%Z ->
  exists r ws' p', borehole_notebook eigh argsort lstsq norm2 det N nboot ((w, s), p) = (Ok r, (ws', p')) /\
    (let x := r_x r in let XX := r_XX r in
     let lo := fun j => fst (nth j bore_box (0, 1)) in let hi := fun j => snd (nth j bore_box (0, 1)) in
     shape x = [N; 8%nat] /\ shape XX = [N; 8%nat] /\
     (forall i, (i < N)%nat ->
        let rw := x.[i, 0%nat] in let rr := x.[i, 1%nat] in
        XX.[i, 0%nat] = normal_at (rng w) i /\ rw = 1/10 + 161812/10000000 * XX.[i, 0%nat] /\
        XX.[i, 1%nat] = normal_at (rng w) (N + i) /\ rr = exp (771/100 + 10056/10000 * XX.[i, 1%nat]) /\
        (forall j, (j < 6)%nat ->
           x.[i, (j + 2)%nat] = lo j + (hi j - lo j) * unif_at (normal_state (2 * N) (rng w)) (j * N + i) /\
           x.[i, (j + 2)%nat] = lo j + (hi j - lo j) / 2 * (XX.[i, (j + 2)%nat] + 1) /\ -1 <= XX.[i, (j + 2)%nat] < 1) /\
        (0 < rw < rr ->
           (r_f r).[i, 0%nat] = flow_rate rw rr (x.[i, 2%nat]) (x.[i, 3%nat]) (x.[i, 4%nat]) (x.[i, 5%nat]) (x.[i, 6%nat]) (x.[i, 7%nat]) /\
           0 < (r_f r).[i, 0%nat] /\
           forall j, (j < 8)%nat -> derivable_pt_lim (fun t => out (borehole (put XX N 8 i j t)) i) (XX.[i, j]) ((r_df r).[i, j]))) /\
     borehole XX = Ok (r_f r) /\ shape (r_f r) = [N; 1%nat] /\ shape (r_df r) = [N; 8%nat]) /\
    analysed N 8 (Z.to_nat nboot) ["rw"; "r"; "Tu"; "Hu"; "Tl"; "Hl"; "L"; "Kw"]%string r p p'.
Proof.
  intros eigh argsort lstsq norm2 det G U N nboot w s p HE HA HT HN HD H1 Hb.
  destruct (normal2_ev G N 1 w) as (z0 & E0 & S0 & V0).
  destruct (normal2_ev G N 1 (set_rng w (normal_state (N * 1) (rng w)))) as (z1 & E1 & S1 & V1).
  set (w2 := set_rng (set_rng w (normal_state (N * 1) (rng w))) (normal_state (N * 1) (rng (set_rng w (normal_state (N * 1) (rng w)))))) in *.
  assert (R2 : rng w2 = normal_state (2 * N) (rng w)).
  { unfold w2. cbn [set_rng rng]. rewrite <- normal_state_add. f_equal. lia. }
  set (rw := amap (fun t => 1/10 + 161812/10000000 * t) z0). set (rr := amap exp (amap (fun t => 771/100 + 10056/10000 * t) z1)).
  destruct (cols_ev (G := G) (U := U) (fun b : R * R => match b with (lo, hi) => onW (uniform2 lo hi N 1) end) fst snd N bore_box w2 s p
    (fun a => match a with (_, _) => eq_refl end)) as (cs & E2 & L2 & S2 & V2).
  assert (Sall : forall c, In c (rw :: rr :: cs) -> shape c = [N; 1%nat]).
  { intros c [<-|[<-|Hc]]; [exact S0|exact S1|exact (S2 c Hc)]. }
  destruct (hstack_all_cols N (rw :: rr :: cs) rw ltac:(discriminate) Sall) as (x & E3 & Sx & Vx).
  cbn [List.length] in Sx, Vx. rewrite L2 in Sx, Vx. change (S (S (List.length bore_box))) with 8%nat in Sx, Vx.
  assert (SC : shape (cols_slice x 2 (ncols x)) = [N; List.length bore_box]).
  { unfold cols_slice. rewrite (nrows_shape2 _ x N 8 Sx), (ncols_shape2 _ x N 8 Sx). reflexivity. }
  assert (BB : forall j, (j < List.length bore_box)%nat -> fst (nth j bore_box (0, 1)) < snd (nth j bore_box (0, 1))) by (unfold bore_box; box_ok).
  destruct (norm_ok bore_box _ N SC BB) as (Y & E4 & SY & VY).
  set (n0 := amap (fun t => (t - 1/10) / (161812/10000000)) rw). set (n1 := amap (fun t => (ln t - 771/100) / (10056/10000)) rr).
  destruct (hstack2 n0 n1 N 1 1 S0 S1) as (Z & E5 & SZ & VZ).
  destruct (hstack2 Z Y N 2 6 SZ SY) as (XX & E6 & SX & VX). change (2 + 6)%nat with 8%nat in SX.
  destruct (C59_borehole_grad N XX SX) as (F & D & F1 & F2 & D1 & D2 & FD).
  destruct (analyse_ev eigh argsort lstsq norm2 det HE HA HT HN HD N 8 nboot ["rw"; "r"; "Tu"; "Hu"; "Tl"; "Hl"; "L"; "Kw"]%string XX F D
      (set_rng w2 (unif_state (N * List.length bore_box) (rng w2))) s p H1 ltac:(lia) Hb SX F2 D2)
      as (e & V & B & S & y & f1 & f2 & f3 & f4 & f5 & ws' & p' & EA & HA').
  exists (Results x XX F D y), ws', p'. split.
  { unfold borehole_notebook, normal_column.
    erewrite nb by (erewrite nb by (apply onW_ev; exact E0); reflexivity).
    erewrite nb by (erewrite nb by (apply onW_ev; exact E1); reflexivity). fold rw. fold rr. cbv zeta. fold w2.
    erewrite nb by exact E2. rewrite E3. erewrite (nb (mlift (Ok x))) by reflexivity.
    change [63070; 990; 631/10; 700; 1120; 9855] with (map fst bore_box). change [115600; 1110; 116; 820; 1680; 12045] with (map snd bore_box).
    rewrite E4. erewrite (nb (mlift (Ok Y))) by reflexivity. fold n0. fold n1. cbn [hstack_all fold_left rbind]. rewrite E5. cbn [rbind]. rewrite E6.
    erewrite (nb (mlift (Ok XX))) by reflexivity. rewrite F1. erewrite (nb (mlift (Ok F))) by reflexivity.
    rewrite D1. erewrite (nb (mlift (Ok D))) by reflexivity. erewrite nb by exact EA. reflexivity. }
  cbn [r_x r_XX r_f r_df r_y]. split; [|exists e, V, B, S, f1, f2, f3, f4, f5; exact HA'].
  cbv zeta. split; [exact Sx|]. split; [exact SX|].
  assert (X0 : forall i, (i < N)%nat -> x.[i, 0%nat] = 1/10 + 161812/10000000 * normal_at (rng w) i).
  { intros i Hi. rewrite Vx by lia. change (1/10 + 161812/10000000 * z0.[i, 0%nat] = 1/10 + 161812/10000000 * normal_at (rng w) i).
    rewrite V0 by lia. do 3 f_equal. lia. }
  assert (X1 : forall i, (i < N)%nat -> x.[i, 1%nat] = exp (771/100 + 10056/10000 * normal_at (rng w) (N + i))).
  { intros i Hi. rewrite Vx by lia. change (exp (771/100 + 10056/10000 * z1.[i, 0%nat]) = exp (771/100 + 10056/10000 * normal_at (rng w) (N + i))).
    rewrite V1 by lia. cbn [set_rng rng]. rewrite normal_at_add. do 4 f_equal. lia. }
  assert (X2 : forall i j, (i < N)%nat -> (j < 6)%nat -> x.[i, (j + 2)%nat] = fst (nth j bore_box (0, 1)) +
     (snd (nth j bore_box (0, 1)) - fst (nth j bore_box (0, 1))) * unif_at (normal_state (2 * N) (rng w)) (j * N + i)).
  { intros i j Hi Hj. rewrite Vx by lia. replace (j + 2)%nat with (Datatypes.S (Datatypes.S j)) by lia. cbn [nth]. rewrite (V2 i j rw (0, 1) Hi) by exact Hj. now rewrite R2. }
  assert (N0 : forall i, (i < N)%nat -> XX.[i, 0%nat] = normal_at (rng w) i).
  { intros i Hi. rewrite VX. cbn [Nat.ltb Nat.leb]. rewrite VZ. cbn [Nat.ltb Nat.leb].
    change ((1/10 + 161812/10000000 * z0.[i, 0%nat] - 1/10) / (161812/10000000) = normal_at (rng w) i).
    rewrite V0 by lia. replace (i * 1 + 0)%nat with i by lia. field. }
  assert (N1 : forall i, (i < N)%nat -> XX.[i, 1%nat] = normal_at (rng w) (N + i)).
  { intros i Hi. rewrite VX. cbn [Nat.ltb Nat.leb]. rewrite VZ. cbn [Nat.ltb Nat.leb Nat.sub].
    change ((ln (exp (771/100 + 10056/10000 * z1.[i, 0%nat])) - 771/100) / (10056/10000) = normal_at (rng w) (N + i)).
    rewrite ln_exp, V1 by lia. cbn [set_rng rng]. rewrite normal_at_add. replace (N * 1 + (i * 1 + 0))%nat with (N + i)%nat by lia. field. }
  assert (N2 : forall i j, (i < N)%nat -> (j < 6)%nat -> XX.[i, (j + 2)%nat] = 2 * unif_at (normal_state (2 * N) (rng w)) (j * N + i) - 1).
  { intros i j Hi Hj. rewrite VX. destruct (Nat.ltb_spec (j + 2) 2); [lia|]. replace (j + 2 - 2)%nat with j by lia.
    rewrite VY by auto. specialize (BB j Hj). change ((cols_slice x 2 (ncols x)).[i, j]) with (x.[i, (2 + j)%nat]).
    replace (2 + j)%nat with (j + 2)%nat by lia. rewrite X2 by auto. field. lra. }
  split; [|split; [exact F1|split; [exact F2|exact D2]]].
  intros i Hi. rewrite N0, N1 by auto. split; [reflexivity|]. split; [now apply X0|]. split; [reflexivity|]. split; [now apply X1|]. split.
  { intros j Hj. split; [now apply X2|]. rewrite X2, N2 by auto. pose proof (unif_at_range G (normal_state (2 * N) (rng w)) (j * N + i)).
    split; [field|lra]. }
  intros Hr. rewrite X0, X1 in Hr by auto. destruct (C70_borehole N (fun i j => if Nat.ltb j 2 then XX.[i, j] else x.[i, j])) as (F' & E' & _ & HV).
  assert (FF : F.[i, 0%nat] = F'.[i, 0%nat]).
  { refine (same_value bore_inputs borehole_row 8 bore_tr borehole bore_inputs_ok _ _ N XX (bore_points N (fun i j => if Nat.ltb j 2 then XX.[i, j] else x.[i, j])) F F' SX eq_refl _ F1 E' i Hi).
    - intros q q' H. unfold borehole_row. same_row H.
    - intros X. unfold borehole. rewrite bore_twice. reflexivity.
    - intros a b Ha Hb'. unfold bore_points. rewrite at_mk2. destruct (Nat.ltb_spec b 2); [reflexivity|].
      destruct (nth (b - 2) bore_box (0, 1)) as [l h] eqn:Eb. assert (Hb6 : (b - 2 < 6)%nat) by lia.
      specialize (BB _ Hb6). rewrite Eb in BB. cbn [fst snd] in BB.
      replace b with ((b - 2) + 2)%nat by lia. rewrite N2, X2 by auto. rewrite Eb. cbn [fst snd]. field. lra. }
  specialize (HV i Hi). cbv zeta in HV. destruct HV as (HV1 & HV2).
  { intros j Hj. cbv beta. destruct (Nat.ltb_spec (j + 2) 2); [lia|]. rewrite X2 by auto. specialize (BB j Hj).
    pose proof (unif_at_range G (normal_state (2 * N) (rng w)) (j * N + i)). nra. }
  { cbn [Nat.ltb Nat.leb]. rewrite N0, N1 by auto. exact Hr. }
  cbn [Nat.ltb Nat.leb] in HV1. rewrite N0, N1 in HV1 by auto.
  rewrite FF. split; [rewrite X0, X1 by auto; exact HV1|]. split; [exact HV2|].
  intros j Hj. destruct (FD i Hi) as (_ & FD'). apply FD'; auto; [|exact I]. split.
  - intros k Hk. replace k with ((k - 2) + 2)%nat by lia. rewrite N2 by lia. pose proof (unif_at_range G (normal_state (2 * N) (rng w)) ((k - 2) * N + i)). lra.
  - rewrite N0, N1 by auto. rewrite (Rplus_comm (161812 / 10000000 * _)), (Rplus_comm (10056 / 10000 * _)). exact Hr.
Qed.
Print Assumptions C96_borehole.

(** Without bootstrap (nboot at most 0) cell 9 fails for every gradient array: the eigenvalues are drawn, without
    ranges, and then the missing errors raise; robot's cell 9 fails before it draws anything. *)
Theorem C96_no_bootstrap : forall eigh argsort lstsq norm2 det (G : gen) (U : Type) N m nboot labels XX F D (w : world G U (nd R)) s p,
  eigh_contract eigh -> argsort_contract argsort -> eigh_total eigh -> norm2_contract norm2 -> det_contract det ->
  (1 <= N)%nat -> (2 <= m)%nat -> (nboot <= 0)%Z -> shape D = [N; m] ->
  (exists e V f1 ws' p', principal_axes N m (fun i j => D.[i, j]) e V /\
     analyse eigh argsort lstsq norm2 det nboot labels XX F D ((w, s), p) = (Err AttributeError, (ws', p')) /\
     displays p p' [f1] [("figs/evals_Output.eps", f1)]%string /\ lines_of f1 = [curve_pts m (fun i => e.[i, 0%nat])] /\ bands_of f1 = []) /\
  (exists ws', analyse_robot eigh argsort lstsq norm2 det nboot labels XX F D ((w, s), p) = (Err TypeError, (ws', p))).
Proof.
  intros eigh argsort lstsq norm2 det G U N m nboot labels XX F D w s p HE HA HT HN HD H1 H2 Hb SD.
  exact (analyse_plain eigh argsort lstsq norm2 det HE HA HT HN HD N m nboot labels XX F D w s p H1 H2 Hb SD).
Qed.
Print Assumptions C96_no_bootstrap.
(** two gradients in two variables, nboot = 0 *)
Example C96_no_bootstrap_case : exists ws' p',
  analyse eigh_ref argsort_ref lstsq_ref norm2_ref det_ref 0 ["a"; "b"]%string df11 df11 df11 ((toy_world (L:=nd R) tt, subs_new), PP [] [] [] true) = (Err AttributeError, (ws', p')).
Proof.
  destruct (C96_no_bootstrap eigh_ref argsort_ref lstsq_ref norm2_ref det_ref toy_gen unit 2 2 0 ["a"; "b"]%string df11 df11 df11 (toy_world tt) subs_new (PP [] [] [] true)
    eigh_ref_contract argsort_ref_contract eigh_ref_total norm2_ref_contract det_ref_contract ltac:(lia) ltac:(lia) ltac:(lia) eq_refl) as ((e & V & f1 & ws' & p' & _ & H & _) & _).
  exists ws', p'. exact H.
Qed.

(** two samples of the circuit with the toy generator, three replicates: the first
    point is a quarter of the way into the box in every input *)
Example C96_case : exists r ws' p',
  circuit_notebook eigh_ref argsort_ref lstsq_ref norm2_ref det_ref 2 3 ((toy_world tt, subs_new), PP [] [] [] true) = (Ok r, (ws', p')) /\
  (r_x r).[0%nat, 0%nat] = 75 /\ (r_x r).[1%nat, 5%nat] = 175 /\ (r_XX r).[0%nat, 0%nat] = -1/2 /\
  (r_f r).[0%nat, 0%nat] = midpoint_voltage 75 (145/4) (9/8) (61/40) (39/80) (225/2) /\
  List.length (p_shown p') = 5%nat /\ map fst (p_files p') =
    ["figs/evals_Output.eps"; "figs/subspace_Output.eps"; "figs/evecs_Output.eps"; "figs/ssp1_Output.eps"; "figs/ssp2_Output.eps"]%string.
Proof.
  destruct (C96_circuit eigh_ref argsort_ref lstsq_ref norm2_ref det_ref toy_gen unit 2 3 (toy_world tt) subs_new (PP [] [] [] true)
    eigh_ref_contract argsort_ref_contract eigh_ref_total norm2_ref_contract det_ref_contract ltac:(lia) ltac:(lia)) as (r & ws' & p' & E & HS & HA).
  exists r, ws', p'. split; [exact E|]. destruct HS as (_ & Vx & _ & VX & _ & _ & HF & _).
  unfold circuit_box in Vx, VX. cbn [List.length] in Vx, VX.
  assert (x0 : forall j, (j < 6)%nat -> (r_x r).[0%nat, j] = fst (nth j circuit_box (0, 1)) + (snd (nth j circuit_box (0, 1)) - fst (nth j circuit_box (0, 1))) * / 4).
  { intros j Hj. rewrite Vx by lia. do 6 (destruct j as [|j]; [reflexivity|]). lia. }
  assert (x1 : (r_x r).[1%nat, 5%nat] = 175). { rewrite Vx by lia. cbn. lra. }
  split; [rewrite x0 by lia; cbn; lra|]. split; [exact x1|]. split.
  { destruct (VX 0%nat 0%nat ltac:(lia) ltac:(lia)) as (Q & _). rewrite x0 in Q by lia. cbn [circuit_box nth fst snd] in Q. lra. }
  split. { destruct (HF 0%nat ltac:(lia)) as (Q & _). rewrite Q. rewrite !x0 by lia. unfold circuit_box. cbn [nth fst snd]. f_equal; lra. }
  destruct HA as (e & V & B & S & f1 & f2 & f3 & f4 & f5 & _ & (_ & D1 & D2) & _). rewrite D1, D2. split; reflexivity.
Qed.
(** a borehole narrower than the mean by one standard deviation, of median radius of influence *)
Example C96_borehole_case : exists r ws' p',
  borehole_notebook eigh_ref argsort_ref lstsq_ref norm2_ref det_ref 1 3 ((toy_world tt, subs_new), PP [] [] [] true) = (Ok r, (ws', p')) /\
  (r_x r).[0%nat, 0%nat] = 838188/10000000 /\ (r_x r).[0%nat, 1%nat] = exp (771/100) /\ 0 < (r_f r).[0%nat, 0%nat].
Proof.
  destruct (C96_borehole eigh_ref argsort_ref lstsq_ref norm2_ref det_ref toy_gen unit 1 3 (toy_world tt) subs_new (PP [] [] [] true)
    eigh_ref_contract argsort_ref_contract eigh_ref_total norm2_ref_contract det_ref_contract ltac:(lia) ltac:(lia)) as (r & ws' & p' & E & (_ & _ & H & _) & _).
  exists r, ws', p'. split; [exact E|]. destruct (H 0%nat ltac:(lia)) as (H0 & H1 & H2 & H3 & _ & H4).
  assert (Z0 : (r_XX r).[0%nat, 0%nat] = -1) by (rewrite H0; unfold normal_at; cbn; lra).
  assert (Z1 : (r_XX r).[0%nat, 1%nat] = 0) by (rewrite H2; unfold normal_at; cbn; lra).
  rewrite Z0 in H1. rewrite Z1 in H3.
  assert (E0 : (r_x r).[0%nat, 0%nat] = 838188/10000000) by (rewrite H1; lra).
  assert (E1 : (r_x r).[0%nat, 1%nat] = exp (771/100)) by (rewrite H3; f_equal; lra).
  split; [exact E0|]. split; [exact E1|]. apply H4. rewrite E0, E1. pose proof (exp_ineq1 (771/100) ltac:(lra)). lra.
Qed.
