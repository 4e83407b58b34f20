(** Evaluating the cells of basic.ipynb. *)
From Coq Require Import String Reals Lra Lia List Arith ZArith Bool.
From Verif Require Import Prelude Py NumArr LinAlg Lsq Sorting Spectral Det EighRef M_Misc P_Misc M_SimRunners M_RespSurf M_Gradients M_QP M_Subspaces P_Subspaces P_Qphd P_PolyTrain P_PolyFacts P_Poly
  P_SimRunners P_SubsState P_Bootstrap P_SubsLive P_LocalLinear M_Domains P_Domains M_Designs M_Integrals P_Integrals M_Optimizers P_Optimizers M_Plotters P_Plotters Properties_Plotters M_Tutorials P_Tutorials Properties_Tutorials Properties_TestFunctions
  Properties_Gradients Properties_Domains Properties_Integrals Properties_Optimizers Properties_Subspaces Properties_SubsState Properties_Integrate M_Notebooks P_Notebooks Properties_Notebooks Properties_ComputeLive M_Basic.
Import ListNotations.
Open Scope R_scope.

(** ** What a cell reports *)

(** n is where the eigenvalues drop most, and A holds the first n eigenvectors *)
Definition active_part (m n : nat) (e V A : nd R) : Prop :=
  shape e = [m; 1%nat] /\ shape V = [m; m] /\ shape A = [m; n] /\
  (forall a b, (a < m)%nat -> (b < m)%nat -> sumf m (fun i => V.[i, a] * V.[i, b]) = if Nat.eqb a b then 1 else 0) /\
  (forall j, (j < m)%nat -> 0 <= e.[j, 0%nat]) /\
  (forall i j, (i <= j)%nat -> (j < m)%nat -> e.[j, 0%nat] <= e.[i, 0%nat]) /\
  (forall i j, (i < m)%nat -> (j < n)%nat -> A.[i, j] = V.[i, j]) /\
  first_best Rgt (m - 1) (fun q => Rabs (e.[(q - 1)%nat, 0%nat] - e.[q, 0%nat])) n.

(** B: least and greatest eigenvalues, S: least, mean and greatest subspace
    distances, over nb repetitions with the answers eb, Vb *)
Definition ranges_over (m nb : nat) (V B S : nd R) (eb Vb : nat -> nd R) : Prop :=
  shape B = [m; 2%nat] /\ shape S = [(m - 1)%nat; 3%nat] /\
  (forall j, (j < m)%nat -> least nb (fun b => (eb b).[j, 0%nat]) (B.[j, 0%nat]) /\ greatest nb (fun b => (eb b).[j, 0%nat]) (B.[j, 1%nat])) /\
  exists dist : nat -> nat -> R,
    (forall b j, (b < nb)%nat -> (j < m - 1)%nat ->
       is_norm2 (j + 1) (m - (j + 1)) (fun a c => sumf m (fun l => V.[l, a] * (Vb b).[l, (j + 1 + c)%nat])) (dist b j)) /\
    (forall j, (j < m - 1)%nat -> least nb (fun b => dist b j) (S.[j, 0%nat]) /\ S.[j, 1%nat] = sumf nb (fun b => dist b j) / INR nb /\
       greatest nb (fun b => dist b j) (S.[j, 2%nat]) /\ 0 <= S.[j, 0%nat] <= S.[j, 1%nat] /\ S.[j, 1%nat] <= S.[j, 2%nat] <= 1).

(** the first two plots; the summary plots of the active variables A^T x *)
Definition two_drawn (m : nat) (e B S : nd R) (f1 f2 : fig) : Prop := values_drawn m e B f1 /\ errors_drawn (m - 1) S f2.
Definition active (m : nat) (XX A : nd R) (i j : nat) : R := sumf m (fun k => XX.[i, k] * A.[k, j]).
Definition all_drawn (N m n : nat) (XX F e B S A : nd R) (p p' : pyplot) : Prop :=
  exists f1 f2 f3, two_drawn m e B S f1 f2 /\
    lines_of f3 = [map (fun i => (active m XX A i 0, F.[i, 0%nat])) (seq 0 N)] /\
    (n = 1%nat /\ displays p p' [f1; f2; f3]
       [("figs/evals_Output.eps", f1); ("figs/subspace_Output.eps", f2); ("figs/ssp1_Output.eps", f3)]%string \/
     n = 2%nat /\ exists f4, clouds_of f4 = [map (fun i => (active m XX A i 0, active m XX A i 1, F.[i, 0%nat])) (seq 0 N)] /\
       displays p p' [f1; f2; f3; f4]
       [("figs/evals_Output.eps", f1); ("figs/subspace_Output.eps", f2); ("figs/ssp1_Output.eps", f3); ("figs/ssp2_Output.eps", f4)]%string).
Definition too_many : string := "Sufficient summary plots cannot be made in more than 2 dimensions.".

Section Cells.
  Context {G : gen} {U : Type}.
  Notation Wd := (world G U (nd R)).
  Notation NB := ((Wd * subspaces) * pyplot)%type.
  Variable eigh : nd R -> res (nd R * nd R).
  Variable argsort : list R -> list nat.
  Variable lstsq : nd R -> nd R -> res (nd R).
  Variable norm2 : nd R -> R.
  Variable det : nd R -> R.
  Hypothesis HE : eigh_contract eigh.
  Hypothesis HA : argsort_contract argsort.
  Hypothesis HT : eigh_total eigh.
  Hypothesis HL : lstsq_contract lstsq.
  Hypothesis HLT : lstsq_total lstsq.
  Hypothesis HNm : norm2_contract norm2.
  Hypothesis HD : det_contract det.

  (** the outcome of a cell that computes a subspace and makes the three plots *)
  Definition outcome {T} (N m n : nat) (XX F e V A B S : nd R) (p : pyplot) (run : res T * NB) (v : T) : Prop :=
    exists (w' : Wd) A2 p', let s' := Subs (Some e) (Some V) (Some A) (Some A2) (Some B) (Some S) in
      ((n <= 2)%nat -> run = (Ok v, ((w', s'), p')) /\ all_drawn N m n XX F e B S A p p') /\
      ((2 < n)%nat -> run = (Err (Exc too_many), ((w', s'), p')) /\
         exists f1 f2, two_drawn m e B S f1 f2 /\ displays p p' [f1; f2] [("figs/evals_Output.eps", f1); ("figs/subspace_Output.eps", f2)]%string).

  Lemma nberr : forall {A B} (m : M NB A) (k : A -> M NB B) w e w', m w = (Err e, w') -> mbind m k w = (Err e, w').
  Proof. intros A B m k w e w' H. unfold mbind. rewrite H. reflexivity. Qed.
  Lemma onP_err : forall {A} (m : M pyplot A) (ws : Wd * subspaces) p e p', m p = (Err e, p') -> onP m (ws, p) = (Err e, (ws, p')).
  Proof. intros A m ws p e p' H. unfold onP. cbn [fst snd]. rewrite H. reflexivity. Qed.

  Lemma three_plots_ev : forall N m n XX F e V A A2 B S eb Vb nbt (w : Wd) p, (1 <= N)%nat -> (2 <= m)%nat -> (1 <= nbt)%nat ->
    shape XX = [N; m] -> shape F = [N; 1%nat] -> active_part m n e V A -> ranges_over m nbt V B S eb Vb ->
    (forall b j, (b < nbt)%nat -> (j < m)%nat -> 0 <= (eb b).[j, 0%nat]) ->
    exists p', let s' := Subs (Some e) (Some V) (Some A) (Some A2) (Some B) (Some S) in
      ((n <= 2)%nat -> three_plots XX F ((w, s'), p) = (Ok tt, ((w, s'), p')) /\ all_drawn N m n XX F e B S A p p') /\
      ((2 < n)%nat -> three_plots XX F ((w, s'), p) = (Err (Exc too_many), ((w, s'), p')) /\
         exists f1 f2, two_drawn m e B S f1 f2 /\ displays p p' [f1; f2] [("figs/evals_Output.eps", f1); ("figs/subspace_Output.eps", f2)]%string).
  Proof.
    intros N m n XX F e V A A2 B S eb Vb nbt w p HN Hm Hnb SX SF (Se & SV & SA & HO & P0 & DE & VA & FB) (SB & SS & RB & dist & _ & RS) Heb.
    assert (Hn : (1 <= n)%nat) by apply FB.
    assert (OB : forall j, (j < m)%nat -> 0 <= B.[j, 0%nat] <= B.[j, 1%nat]).
    { intros j Hj. destruct (RB j Hj) as ((L1 & b1 & Hb1 & L2) & (G1 & _)). specialize (G1 b1 Hb1). specialize (Heb b1 j Hb1 Hj). cbv beta in *. lra. }
    assert (OS : forall j, (j < m - 1)%nat -> 0 <= S.[j, 0%nat] <= S.[j, 1%nat] /\ S.[j, 1%nat] <= S.[j, 2%nat] <= 1).
    { intros j Hj. destruct (RS j Hj) as (_ & _ & _ & Q). exact Q. }
    destruct (npdot2_ex XX A N m n SX SA) as (y & Ey & Sy & Vy).
    destruct (evals_drawn e B m 2 p Se ltac:(lia) SB ltac:(lia) OB) as (f1 & p1 & E1 & D1 & F1).
    destruct (C63_subspace_errors S (m - 1) 3 None None p1 SS ltac:(lia) ltac:(lia) OS I) as (f2 & p2 & E2 & D2 & F2a & F2b & _ & _ & lo2 & F2w & _ & _ & F2v). pose proof (some_window _ _ _ _ F2w F2v) as F2c.
    destruct (C65_summary_partial y F N n None None p2 Sy SF ltac:(lia) I) as (K1 & K2 & K3).
    assert (TD : two_drawn m e B S f1 f2) by (split; [exact F1|exact (conj F2a (conj F2b F2c))]).
    assert (DD := displays_trans _ _ _ _ _ _ _ D1 D2).
    set (s' := Subs (Some e) (Some V) (Some A) (Some A2) (Some B) (Some S)).
    assert (RUN : three_plots XX F ((w, s'), p) = onP (sufficient_summary y F None None) ((w, s'), p2)).
    { unfold three_plots.
      erewrite nb by (apply attr_ev; reflexivity). erewrite nb by (apply onS_ev; reflexivity). cbn [snd s' s_e_br].
      erewrite nb by (apply onP_ev; exact E1).
      erewrite nb by (apply attr_ev; reflexivity).
      erewrite nb by (apply onP_ev; exact E2).
      erewrite nb by (apply attr_ev; reflexivity).
      rewrite Ey. erewrite (nb (mlift (Ok y))) by reflexivity. reflexivity. }
    assert (C3 : n = 1%nat \/ n = 2%nat \/ (2 < n)%nat) by lia. destruct C3 as [C|[C|C]].
    - destruct (K1 C) as (g & p3 & E3 & D3 & L3 & _). exists p3. split; [|lia]. intros _. split.
      { rewrite RUN. apply onP_ev. exact E3. }
      exists f1, f2, g. split; [exact TD|]. split.
      { rewrite L3. f_equal. apply map_ext. intros i. now rewrite Vy. }
      left. split; [exact C|]. exact (displays_trans _ _ _ _ _ _ _ DD D3).
    - destruct (K2 C) as (g & h & p3 & E3 & D3 & L3 & _ & C4 & _). exists p3. split; [|lia]. intros _. split.
      { rewrite RUN. apply onP_ev. exact E3. }
      exists f1, f2, g. split; [exact TD|]. split.
      { rewrite L3. f_equal. apply map_ext. intros i. now rewrite Vy. }
      right. split; [exact C|]. exists h. split; [rewrite C4; unfold cloud; f_equal; apply map_ext; intros i; now rewrite !Vy|].
      exact (displays_trans _ _ _ _ _ _ _ DD D3).
    - eexists. split; [lia|]. intros _. split.
      { rewrite RUN. apply onP_err. apply K3; lia. }
      exists f1, f2. split; [exact TD|]. exact DD.
  Qed.

  (** everything about a computation with bootstrap, by the default rule *)
  Lemma computed_any : forall X f df sstype nboot (w w' : Wd) s s' N m, (2 <= m)%nat -> (0 < nboot)%Z ->
    match X, df with Some x, _ => shape x = [N; m] | None, Some d => shape d = [N; m] | None, None => False end ->
    (forall x d, X = Some x -> df = Some d -> False) ->
    ss_compute eigh argsort lstsq norm2 det X f df None sstype "EVG" nboot (w, s) = (Ok tt, (w', s')) ->
    exists e V A A2 B S n eb Vb w1, s' = Subs (Some e) (Some V) (Some A) (Some A2) (Some B) (Some S) /\
      ssmethod eigh argsort lstsq sstype X f df (mk2 N 1 (fun _ _ => / INR N)) w = (Ok (e, V), w1) /\
      active_part m n e V A /\ ranges_over m (Z.to_nat nboot) V B S eb Vb /\
      (forall b, (b < Z.to_nat nboot)%nat -> exists ind X0 f0 df0 w0 (wa wb : Wd), List.length ind = N /\
         opt_rows_of X ind X0 /\ opt_rows_of f ind f0 /\ opt_rows_of df ind df0 /\ rows_of (mk2 N 1 (fun _ _ => / INR N)) ind w0 /\
         ssmethod eigh argsort lstsq sstype X0 f0 df0 w0 wa = (Ok (eb b, Vb b), wb)) /\
      (forall b j, (b < Z.to_nat nboot)%nat -> (j < m)%nat -> 0 <= (eb b).[j, 0%nat]).
  Proof.
    intros X f df sstype nboot w w' s s' N m Hm Hb HS HX H.
    assert (SC : same_columns X df) by (intros x d E1 E2; destruct (HX x d E1 E2)).
    destruct (C53_compute eigh argsort lstsq norm2 det G U X f df None sstype "EVG" nboot _ _ HE HA HNm HD SC H)
      as (M & m' & e & V & n & A & w1 & S0 & HM & E1 & E2 & E3 & Se & SV & SA & Hn & VA & CR). cbn [snd fst] in *.
    assert (EN : M = N /\ m' = m).
    { destruct X as [x|]; [rewrite HS in S0|destruct df as [d|]; [rewrite HS in S0|contradiction]]; split; congruence. }
    destruct EN as (-> & ->).
    destruct CR as [(_ & FB)|[(C & _)|(C & _)]]; try discriminate.
    destruct (C19_compute_stores_ranges eigh argsort lstsq norm2 det G U _ _ _ _ _ _ _ _ _ HE HA H) as (_ & HS2).
    destruct (HS2 Hb) as (M' & m' & e' & V' & B & S & li & w2 & w3 & S0' & EB & ES & E1' & E2' & HB). cbn [snd] in *.
    assert (EN : M' = N /\ m' = m).
    { destruct X as [x|]; [rewrite HS in S0'|destruct df as [d|]; [rewrite HS in S0'|contradiction]]; split; congruence. }
    destruct EN as (-> & ->).
    assert (e' = e) by congruence. assert (V' = V) by congruence. subst e' V'. clear E1' E2'.
    destruct (ssmethod_ok eigh argsort lstsq HE HA _ _ _ _ _ _ _ _ _ HM) as (k & C & lam & Hk & L).
    assert (SV' := es_V _ _ _ _ _ L). rewrite SV in SV'. injection SV' as <-.
    assert (NC : match df, X with Some d, _ => ncols d = m | None, Some x => ncols x = m | None, None => False end).
    { destruct df as [d|]; destruct X as [x|]; try contradiction.
      - destruct (HX x d eq_refl eq_refl).
      - exact (ncols_shape2 _ d N m HS).
      - exact (ncols_shape2 _ x N m HS). }
    destruct (C19_bootstrap_ranges eigh argsort lstsq norm2 det G U sstype e V X f df _ (Z.to_nat nboot) _ B S li _ m
      HE HA HNm HD ltac:(lia) SV (es_orth _ _ _ _ _ L) NC HB) as (SB & SS & _ & eb & Vb & dist & R1 & R2 & R3 & R4 & _).
    destruct s' as [q1 q2 q3 q4 q5 q6]. cbn [s_eigenvals s_eigenvecs s_W1 s_W2 s_e_br s_sub_br] in *. subst q1 q2 q3 q5 q6.
    assert (EA2 : exists A2, q4 = Some A2).
    { destruct (ss_compute_ok eigh argsort lstsq norm2 det HE HA _ _ _ _ _ _ _ _ _ _ H) as (? & ? & ? & ? & ? & ? & ? & ? & B2 & ? & ? & ? & ? & ? & ? & ? & ? & ES).
      exists B2. apply (f_equal s_W2) in ES. exact ES. }
    destruct EA2 as (A2 & ->).
    exists e, V, A, A2, B, S, n, eb, Vb, w1. split; [reflexivity|]. split; [exact HM|]. split.
    { split; [exact Se|]. split; [exact SV|]. split; [exact SA|]. split; [exact (es_orth _ _ _ _ _ L)|].
      split; [exact (eigsorted_nonneg _ _ _ _ _ L)|]. split; [exact (es_dec _ _ _ _ _ L)|]. split; [exact VA|].
      destruct FB as (B1 & B2 & B3). split; [exact B1|].
      assert (Q : forall q, (1 <= q)%nat -> (q + 1 - 1 = q)%nat) by (intros; lia).
      split.
      - intros q Hq. specialize (B2 q Hq). cbv beta in B2. rewrite !Q in B2 by lia. exact B2.
      - intros q H1 H2. specialize (B3 q H1 H2). cbv beta in B3. rewrite !Q in B3 by lia. exact B3. }
    split.
    { split; [exact SB|]. split; [exact SS|]. split.
      - intros j Hj. destruct (R3 j Hj) as (K1 & (b1 & Hb1 & K2) & (b2 & Hb2 & K3)).
        split; (split; [intros b Hbb; apply (K1 b Hbb)|]); [exists b1 | exists b2]; auto.
      - exists dist. split; [exact R2|]. intros j Hj. destruct (R4 j Hj) as (K1 & (b1 & Hb1 & K2) & (b2 & Hb2 & K3) & K4 & K5 & K6).
        split; [split; [intros b Hbb; apply (K1 b Hbb)|exists b1; auto]|]. split.
        { rewrite <- K4. field. apply not_0_INR. lia. }
        split; [split; [intros b Hbb; apply (K1 b Hbb)|exists b2; auto]|]. auto. }
    split; [exact R1|].
    intros b j Hbb Hj. destruct (R1 b Hbb) as (ind & X0 & f0 & df0 & w0 & wa & wb & Li & O1 & _ & O3 & _ & HM0).
    destruct (ssmethod_ok eigh argsort lstsq HE HA _ _ _ _ _ _ _ _ _ HM0) as (k & C0 & lam0 & Hk0 & L0).
    assert (Ek : k = m).
    { unfold method_dim in Hk0. destruct (String.eqb sstype "AS").
      - destruct Hk0 as (d & M & -> & Sd). destruct df as [d0|]; [|discriminate]. destruct O3 as (d' & Ed & r & c & Q1 & Q2 & _). injection Ed as <-.
        destruct X as [x|]; [destruct (HX x d0 eq_refl eq_refl)|]. rewrite HS in Q1. injection Q1 as <- <-. rewrite Sd in Q2. congruence.
      - destruct Hk0 as (x & M & -> & Sx). destruct X as [x0|]; [|discriminate]. destruct O1 as (x' & Ex & r & c & Q1 & Q2 & _). injection Ex as <-.
        rewrite HS in Q1. injection Q1 as <- <-. rewrite Sx in Q2. congruence. }
    subst k. exact (eigsorted_nonneg _ _ _ _ _ L0 j Hj).
  Qed.

  Lemma outcome_ret : forall {T} N m n XX F e V A B S p (c : M NB unit) st (v : T),
    outcome N m n XX F e V A B S p (c st) tt -> outcome N m n XX F e V A B S p ((dom _ <- c; mret v) st) v.
  Proof.
    intros T N m n XX F e V A B S p c st v (w' & A2 & p' & K1 & K2). exists w', A2, p'. split.
    - intros Hn. destruct (K1 Hn) as (E & D). split; [|exact D]. rewrite (nb _ _ _ _ _ E). reflexivity.
    - intros Hn. destruct (K2 Hn) as (E & D). split; [|exact D]. exact (nberr _ _ _ _ _ E).
  Qed.

  (** a cell that computes a subspace and makes the plots *)
  Lemma cell_ev : forall X f df sstype nboot (w : Wd) s p N m XX F K, (2 <= m)%nat -> (0 < nboot)%Z -> (1 <= K)%nat ->
    match X, df with Some x, _ => shape x = [N; m] | None, Some d => shape d = [N; m] | None, None => False end ->
    (forall x d, X = Some x -> df = Some d -> False) ->
    shape XX = [K; m] -> shape F = [K; 1%nat] ->
    (exists ws', ss_compute eigh argsort lstsq norm2 det X f df None sstype "EVG" nboot (w, s) = (Ok tt, ws')) ->
    exists e V A B S n eb Vb w1,
      ssmethod eigh argsort lstsq sstype X f df (mk2 N 1 (fun _ _ => / INR N)) w = (Ok (e, V), w1) /\
      active_part m n e V A /\ ranges_over m (Z.to_nat nboot) V B S eb Vb /\
      (forall b, (b < Z.to_nat nboot)%nat -> exists ind X0 f0 df0 w0 (wa wb : Wd), List.length ind = N /\
         opt_rows_of X ind X0 /\ opt_rows_of f ind f0 /\ opt_rows_of df ind df0 /\ rows_of (mk2 N 1 (fun _ _ => / INR N)) ind w0 /\
         ssmethod eigh argsort lstsq sstype X0 f0 df0 w0 wa = (Ok (eb b, Vb b), wb)) /\
      (exists ws' A2, ss_compute eigh argsort lstsq norm2 det X f df None sstype "EVG" nboot (w, s) = (Ok tt, (ws', Subs (Some e) (Some V) (Some A) (Some A2) (Some B) (Some S)))) /\
      outcome K m n XX F e V A B S p
        ((dom _ <- onS (ss_compute eigh argsort lstsq norm2 det X f df None sstype "EVG" nboot); three_plots XX F) ((w, s), p)) tt.
  Proof.
    intros X f df sstype nboot w s p N m XX F K Hm Hb HK HS HX SX SF ((w' & s') & H).
    destruct (computed_any _ _ _ _ _ _ _ _ _ N m Hm Hb HS HX H) as (e & V & A & A2 & B & S & n & eb & Vb & w1 & -> & HM & AP & RO & RB & EB).
    exists e, V, A, B, S, n, eb, Vb, w1. split; [exact HM|]. split; [exact AP|]. split; [exact RO|]. split; [exact RB|]. split; [eauto|].
    destruct (three_plots_ev K m n XX F e V A A2 B S eb Vb (Z.to_nat nboot) w' p HK Hm ltac:(lia) SX SF AP RO EB) as (p' & K1 & K2).
    exists w', A2, p'. cbv zeta. rewrite (nb _ _ _ _ _ (onS_ev _ _ _ _ _ H)). split; assumption.
  Qed.
End Cells.

(** ** The data and the limits *)

Definition lo (j : nat) : R := fst (nth j wing_box (0, 1)).
Definition hi (j : nat) : R := snd (nth j wing_box (0, 1)).
Definition weight (p : nat -> R) : R :=
  wing_weight (p 0%nat) (p 1%nat) (p 2%nat) (p 3%nat) (p 4%nat) (p 5%nat) (p 6%nat) (p 7%nat) (p 8%nat) (p 9%nat).
Definition limits (lb ub : nd R) : Prop :=
  shape lb = [1%nat; 10%nat] /\ shape ub = [1%nat; 10%nat] /\ forall j, (j < 10)%nat -> ub.[0%nat, j] = lo j /\ lb.[0%nat, j] = hi j.

Ltac ten j := destruct j as [|[|[|[|[|[|[|[|[|[|j]]]]]]]]]]; [| | | | | | | | | |exfalso; lia].
Lemma lo_hi : forall j, (j < 10)%nat -> lo j < hi j.
Proof. intros j Hj. unfold lo, hi, wing_box. ten j; cbn [nth fst snd]; lra. Qed.

Lemma limits_row_ok : forall l, List.length l = 10%nat -> exists r, limits_row l = Ok r /\ shape r = [1%nat; 10%nat] /\ forall j, (j < 10)%nat -> r.[0%nat, j] = nth j l 0.
Proof.
  intros l Hl. unfold limits_row. rewrite Hl.
  destruct (reshape_ok _ [1%nat; 10%nat] (mk1 10 (fun i => nth i l 0))) as (r & E & Sr & Vr); [reflexivity|].
  exists r. split; [exact E|]. split; [exact Sr|]. intros j Hj.
  injection E as <-. ten j; reflexivity.
Qed.

Lemma limits_ok : exists ub lb, limits_row basic_ub = Ok ub /\ limits_row basic_lb = Ok lb /\ limits lb ub.
Proof.
  destruct (limits_row_ok basic_ub eq_refl) as (ub & E1 & S1 & V1). destruct (limits_row_ok basic_lb eq_refl) as (lb & E2 & S2 & V2).
  exists ub, lb. split; [exact E1|]. split; [exact E2|]. split; [exact S2|]. split; [exact S1|].
  intros j Hj. rewrite V1, V2 by auto. unfold basic_ub, basic_lb, lo, hi, wing_box. ten j; cbn [nth fst snd]; lra.
Qed.

Lemma normalize_ok : forall lb ub x N, limits lb ub -> shape x = [N; 10%nat] -> exists XX, basic_normalize lb ub x = Ok XX /\ shape XX = [N; 10%nat] /\
  forall i j, (i < N)%nat -> (j < 10)%nat -> XX.[i, j] = 2 * (x.[i, j] - hi j) / (lo j - hi j) - 1.
Proof.
  intros lb ub x N (Sl & Su & L) Sx. unfold basic_normalize.
  destruct (bcast2_row _ _ _ Rminus x lb N 10 Sx Sl) as (d & E1 & S1 & V1). rewrite E1. cbn [rbind].
  destruct (bcast2_same _ _ _ Rminus ub lb 1 10 Su Sl) as (r & E2 & S2 & V2). rewrite E2. cbn [rbind].
  destruct (bcast2_row _ _ _ Rdiv (amap (Rmult 2) d) r N 10 S1 S2) as (q & E3 & S3 & V3). rewrite E3. cbn [rbind].
  eexists. split; [reflexivity|]. split; [exact S3|]. intros i j Hi Hj.
  change ((amap (fun t => t - 1) q).[i, j]) with (q.[i, j] - 1). rewrite V3 by auto. change ((amap (Rmult 2) d).[i, j]) with (2 * d.[i, j]).
  rewrite V1, V2 by (auto; lia). destruct (L j Hj) as (-> & ->). reflexivity.
Qed.

Lemma physical_ok : forall lb ub X N, limits lb ub -> shape X = [N; 10%nat] -> exists Y, basic_physical lb ub X = Ok Y /\ shape Y = [N; 10%nat] /\
  forall i j, (i < N)%nat -> (j < 10)%nat -> Y.[i, j] = hi j + (lo j - hi j) / 2 * (X.[i, j] + 1).
Proof.
  assert (RR : forall (f : R -> R -> R) a X N, shape a = [1%nat; 10%nat] -> shape X = [N; 10%nat] -> exists Z, bcast2 f a X = Ok Z /\ shape Z = [N; 10%nat] /\
    forall i j, (i < N)%nat -> (j < 10)%nat -> Z.[i, j] = f (a.[0%nat, j]) (X.[i, j])).
  { intros f a X N Sa SX. unfold bcast2. rewrite Sa, SX. unfold bdim.
    destruct (Nat.eqb_spec 1 N) as [<-|D]; cbn [Nat.eqb]; eexists; (split; [reflexivity|]; split; [reflexivity|]);
      intros i j Hi Hj; rewrite at_mk2; unfold bidx; cbn [Nat.eqb].
    - replace i with 0%nat by lia. reflexivity.
    - destruct (Nat.eqb_spec N 1); [congruence|reflexivity]. }
  intros lb ub X N (Sl & Su & L) SX. unfold basic_physical.
  destruct (bcast2_same _ _ _ Rminus ub lb 1 10 Su Sl) as (r & E2 & S2 & V2). rewrite E2. cbn [rbind].
  destruct (RR Rmult (amap (fun t => t / 2) r) (amap (fun t => t + 1) X) N S2 SX) as (q & E3 & S3 & V3). rewrite E3. cbn [rbind].
  destruct (RR Rplus lb q N Sl S3) as (Y & E4 & S4 & V4). exists Y. split; [exact E4|]. split; [exact S4|].
  intros i j Hi Hj. rewrite V4, V3 by auto. change ((amap (fun t => t / 2) r).[0%nat, j]) with (r.[0%nat, j] / 2). change ((amap (fun t => t + 1) X).[i, j]) with (X.[i, j] + 1).
  rewrite V2 by (auto; lia). destruct (L j Hj) as (-> & ->). reflexivity.
Qed.

Lemma gradient_ok : forall lb ub x N, limits lb ub -> shape x = [N; 10%nat] -> exists D, basic_gradient lb ub x = Ok D /\ shape D = [N; 10%nat] /\
  forall i, (i < N)%nat -> wing_ok (fun j => x.[i, j]) -> forall j, (j < 10)%nat ->
    derivable_pt_lim (fun t => out (tut_wing (put x N 10 i j (hi j + (lo j - hi j) / 2 * (t + 1)))) i) (2 * (x.[i, j] - hi j) / (lo j - hi j) - 1) (D.[i, j]).
Proof.
  intros lb ub x N (Sl & Su & L) Sx. unfold basic_gradient.
  destruct (proj2 C62_tutorial_wing_partial N x Sx) as (F & Gd & _ & _ & EG & SG & HG).
  unfold wing_grad_degrees in EG. destruct (tut_wing_grad x) as [G|er] eqn:E0; [|discriminate]. cbn [rbind] in EG |- *. injection EG as EG.
  assert (SGG : shape G = [N; 10%nat]).
  { destruct (proj1 C62_tutorial_wing_partial N x Sx) as (F' & G' & _ & _ & EG' & SG' & _). rewrite E0 in EG'. injection EG' as <-. exact SG'. }
  destruct (bcast2_same _ _ _ Rminus ub lb 1 10 Su Sl) as (r & E2 & S2 & V2). rewrite E2. cbn [rbind].
  destruct (bcast2_row _ _ _ Rmult G (amap (fun t => t / 2) r) N 10 SGG S2) as (q & E3 & S3 & V3). rewrite E3. cbn [rbind].
  eexists. split; [reflexivity|]. split; [rewrite (nrows_shape2 _ q N 10 S3), (ncols_shape2 _ q N 10 S3); reflexivity|].
  intros i Hi Hok j Hj. destruct (HG i Hi) as (_ & HD). specialize (HD Hok j Hj I).
  rewrite at_mk2. set (x0 := 2 * (x.[i, j] - hi j) / (lo j - hi j) - 1).
  assert (LH := lo_hi j Hj).
  assert (EX : hi j + (lo j - hi j) / 2 * (x0 + 1) = x.[i, j]) by (unfold x0; field; lra).
  assert (DL : derivable_pt_lim (fun t => hi j + (lo j - hi j) / 2 * (t + 1)) x0 ((lo j - hi j) / 2)).
  { assert (Q0 : 0 + (lo j - hi j) / 2 * (1 + 0) = (lo j - hi j) / 2) by ring.
    refine (eq_ind _ (fun l => derivable_pt_lim (fun t => hi j + (lo j - hi j) / 2 * (t + 1)) x0 l) _ _ Q0).
    apply (derivable_pt_lim_plus (fun _ => hi j) (fun t => (lo j - hi j) / 2 * (t + 1))); [apply derivable_pt_lim_const|].
    apply (derivable_pt_lim_scal (fun t => t + 1)). apply (derivable_pt_lim_plus id (fun _ => 1)); [apply derivable_pt_lim_id|apply derivable_pt_lim_const]. }
  rewrite <- EX in HD.
  pose proof (derivable_pt_lim_comp _ _ _ _ _ DL HD) as HC. unfold comp in HC.
  replace (if Nat.eqb j 3 then q.[i, j] * (PI / 180) else q.[i, j]) with (Gd.[i, j] * ((lo j - hi j) / 2)); [exact HC|].
  assert (Q : q.[i, j] = G.[i, j] * ((lo j - hi j) / 2)).
  { rewrite V3 by auto. change ((amap (fun t => t / 2) r).[0%nat, j]) with (r.[0%nat, j] / 2). rewrite V2 by (auto; lia). destruct (L j Hj) as (-> & ->). reflexivity. }
  rewrite Q, <- EG, at_mk2. destruct (Nat.eqb j 3); ring.
Qed.

Lemma in_box_ok : forall p, within wing_box p -> wing_ok p.
Proof.
  intros p H. split.
  - intros j Hj H3. specialize (H j Hj). unfold wing_box in H. ten j; cbn [nth fst snd] in H; try lra. congruence.
  - specialize (H 3%nat ltac:(cbn; lia)). unfold wing_box in H. cbn [nth fst snd] in H.
    pose proof PI_RGT_0. apply cos_gt_0; nra.
Qed.

Lemma sampled_box : forall p, (forall j, (j < 10)%nat -> exists u, 0 <= u <= 1 /\ p j = lo j + (hi j - lo j) * u) -> within wing_box p.
Proof.
  intros p H j Hj. change (List.length wing_box) with 10%nat in Hj. destruct (H j Hj) as (u & Hu & ->). pose proof (lo_hi j Hj). fold (lo j) (hi j). nra.
Qed.

Section Cell3.
  Context {G : gen} {U : Type}.
  Notation Wd := (world G U (nd R)).
  Lemma cell3_ev : forall N (w : Wd) s p, exists x f ub lb XX,
    cell3 N ((w, s), p) = (Ok (x, f, ub, lb, XX), ((set_rng w (unif_state (N * 10) (rng w)), s), p)) /\ limits lb ub /\
    shape x = [N; 10%nat] /\ shape f = [N; 1%nat] /\ shape XX = [N; 10%nat] /\
    (forall i j, (i < N)%nat -> (j < 10)%nat -> x.[i, j] = lo j + (hi j - lo j) * unif_at (rng w) (j * N + i) /\ XX.[i, j] = 1 - 2 * unif_at (rng w) (j * N + i)) /\
    (forall i, (i < N)%nat -> within wing_box (fun j => x.[i, j]) /\ f.[i, 0%nat] = weight (fun j => x.[i, j])).
  Proof.
    intros N w s p. destruct (sample_cols N wing_box w s p ltac:(discriminate)) as (x & E & Sx & Vx). change (List.length wing_box) with 10%nat in *.
    destruct (proj2 C70_wing N x Sx) as (F & EF & SF & VF).
    destruct limits_ok as (ub & lb & EU & EL & LM).
    destruct (normalize_ok lb ub x N LM Sx) as (XX & EX & SX & VX).
    exists x, F, ub, lb, XX. split.
    { unfold cell3.
      replace [(150, 200, 1%nat); (220, 300, 1%nat); (6, 10, 1%nat); (-10, 10, 1%nat); (16, 45, 1%nat); (5/10, 1, 1%nat);
        (8/100, 18/100, 1%nat); (25/10, 6, 1%nat); (1700, 2500, 1%nat); (25/1000, 8/100, 1%nat)] with (map (fun b => (fst b, snd b, 1%nat)) wing_box) by (unfold wing_box; nums).
      rewrite (nb _ _ _ _ _ E).
      rewrite EF. erewrite (nb (mlift (Ok F))) by reflexivity. rewrite EU. erewrite (nb (mlift (Ok ub))) by reflexivity.
      rewrite EL. erewrite (nb (mlift (Ok lb))) by reflexivity. rewrite EX. erewrite (nb (mlift (Ok XX))) by reflexivity. reflexivity. }
    split; [exact LM|]. split; [exact Sx|]. split; [exact SF|]. split; [exact SX|]. split.
    { intros i j Hi Hj. assert (Q : x.[i, j] = lo j + (hi j - lo j) * unif_at (rng w) (j * N + i)) by (apply Vx; auto).
      split; [exact Q|]. rewrite VX by auto. rewrite Q. pose proof (lo_hi j Hj). field. lra. }
    intros i Hi. assert (IB : within wing_box (fun j => x.[i, j])).
    { apply sampled_box. intros j Hj. exists (unif_at (rng w) (j * N + i)). pose proof (unif_at_range G (rng w) (j * N + i)). split; [lra|]. apply Vx; auto. }
    split; [exact IB|]. exact (VF i Hi IB).
  Qed.
End Cell3.

(** ** The surface *)

Definition surface (RS : poly) (t : R) : R :=
  (pa_weights RS).[0%nat, 0%nat] + (pa_weights RS).[1%nat, 0%nat] * t + (pa_weights RS).[2%nat, 0%nat] * t ^ 2.
Definition quadratic_surface (RS : poly) : Prop := pa_N RS = 2%nat /\ shape (pa_weights RS) = [3%nat; 1%nat].

Lemma index_set_2_1 : index_set 2 1 = Ok [[0%nat]; [1%nat]; [2%nat]].
Proof. reflexivity. Qed.

Lemma surface_predict : forall RS X M, quadratic_surface RS -> shape X = [M; 1%nat] ->
  exists F, poly_predict RS X false = Ok (F, None) /\ shape F = [M; 1%nat] /\ forall r, (r < M)%nat -> F.[r, 0%nat] = surface RS (X.[r, 0%nat]).
Proof.
  intros RS X M (HN & HS) SX.
  destruct (poly_predict_ok RS X M 1 false SX ltac:(lia)) as (L & F & EL & SF & VF & EP); [rewrite HN; exact HS|].
  rewrite HN, index_set_2_1 in EL. injection EL as <-.
  exists F. split; [exact EP|]. split; [exact SF|]. intros r Hr. rewrite VF by auto. unfold poly_eval, surface, P_Poly.mono. cbn [length sumf nth prodf]. ring.
Qed.

Lemma combine_map_seq : forall (a b : nat -> R) l, combine (map a l) (map b l) = map (fun i => (a i, b i)) l.
Proof. intros a b l. induction l as [|x l IH]; [reflexivity|]. cbn [map combine]. now rewrite IH. Qed.

Section Later.
  Context {G : gen} {U : Type}.
  Notation Wd := (world G U (nd R)).
  Notation NB := ((Wd * subspaces) * pyplot)%type.
  Variable lstsq : nd R -> nd R -> res (nd R).
  Hypothesis HL : lstsq_contract lstsq.
  Hypothesis HLT : lstsq_total lstsq.

  (** what cell 15 finds and draws *)
  Definition fitted (N : nat) (y : nat -> R) (F : nd R) (RS : poly) : Prop :=
    quadratic_surface RS /\
    (forall a b c, sumf N (fun i => (F.[i, 0%nat] - surface RS (y i)) ^ 2) <= sumf N (fun i => (F.[i, 0%nat] - (a + b * y i + c * y i ^ 2)) ^ 2)) /\
    (let mean := sumf N (fun i => F.[i, 0%nat]) / INR N in let total := sumf N (fun i => (F.[i, 0%nat] - mean) ^ 2) in
     total <> 0 -> pa_Rsqr RS = Fin (1 - sumf N (fun i => (F.[i, 0%nat] - surface RS (y i)) ^ 2) / total)).

  Lemma cell15_ev : forall N m XX F A (w : Wd) s p, (3 <= N)%nat -> shape XX = [N; m] -> shape F = [N; 1%nat] -> s_W1 s = Some A -> shape A = [m; 1%nat] ->
    exists RS f p', cell15 lstsq XX F ((w, s), p) = (Ok RS, ((w, s), p')) /\ fitted N (fun i => active m XX A i 0) F RS /\ displays p p' [f] [] /\
      lines_of f = [map (fun i => (active m XX A i 0, F.[i, 0%nat])) (seq 0 N);
                    map (fun k => let t := -2 + 4 * INR k / 199 in (t, surface RS t)) (seq 0 200)] /\
      texts_of f = [("xlabel", "Active Variable Value"); ("ylabel", "Output")]%string.
  Proof.
    intros N m XX F A w s [l sh fs d] HN SX SF HA SA.
    destruct (npdot2_ex XX A N m 1 SX SA) as (y & Ey & Sy & Vy).
    destruct (poly_train_inv lstsq HL 2 y F None N 1 Sy SF ltac:(lia) ltac:(lia) I) as (L & EL & _ & HT & HTT).
    rewrite index_set_2_1 in EL. injection EL as <-. destruct (HTT ltac:(cbn; lia) HLT) as (RS & ER). specialize (HT _ ER).
    assert (QS : quadratic_surface RS) by (split; [exact (t_N _ _ _ _ _ _ _ _ HT)|exact (t_w _ _ _ _ _ _ _ _ HT)]).
    assert (RSS : forall v, rss N 3 (fun r c => P_PolyTrain.wt None r * P_Poly.mono 1 (nth c [[0%nat]; [1%nat]; [2%nat]] []) (fun j => y.[r, j])) (fun r => P_PolyTrain.wt None r * F.[r, 0%nat]) v =
      sumf N (fun i => (F.[i, 0%nat] - (v 0%nat + v 1%nat * active m XX A i 0 + v 2%nat * active m XX A i 0 ^ 2)) ^ 2)).
    { intros v. unfold rss, resid. apply sumf_ext. intros i Hi. unfold P_PolyTrain.wt, P_Poly.mono. cbn [sumf nth prodf]. rewrite Vy. unfold active. ring. }
    assert (FT : fitted N (fun i => active m XX A i 0) F RS).
    { split; [exact QS|]. split.
      - intros a b c. pose proof (t_min _ _ _ _ _ _ _ _ HT (fun k => match k with O => a | 1%nat => b | _ => c end)) as Q.
        cbn [List.length] in Q. rewrite !RSS in Q. exact Q.
      - cbv zeta. intros Ht. rewrite (t_R _ _ _ _ _ _ _ _ HT). cbn [List.length]. rewrite RSS.
        assert (EV : INR N * var_col (mk2 N 1 (fun r _ => P_PolyTrain.wt None r * F.[r, 0%nat])) N = sumf N (fun i => (F.[i, 0%nat] - sumf N (fun i => F.[i, 0%nat]) / INR N) ^ 2)).
        { assert (NN : INR N <> 0) by (apply not_0_INR; lia). unfold var_col, sum_col.
          rewrite (sumf_ext N (fun i => (mk2 N 1 (fun r _ => P_PolyTrain.wt None r * F.[r, 0%nat])).[i, 0%nat]) (fun i => F.[i, 0%nat])) by (intros; rewrite at_mk2; unfold P_PolyTrain.wt; ring).
          match goal with |- INR N * (sumf N ?a / INR N) = _ => replace (INR N * (sumf N a / INR N)) with (sumf N a) by (field; exact NN) end.
          apply sumf_ext. intros i Hi. rewrite at_mk2. unfold P_PolyTrain.wt. ring. }
        rewrite EV, xdiv_fin by exact Ht. unfold xsub. cbn [xneg xadd]. reflexivity. }
    destruct (surface_predict RS (mk2 200 1 (fun i _ => -2 + 4 * INR i / 199)) 200 QS eq_refl) as (F0 & E0 & S0 & V0).
    set (pts := map (fun i => (active m XX A i 0, F.[i, 0%nat])) (seq 0 N)).
    set (crv := map (fun k => let t := -2 + 4 * INR k / 199 in (t, surface RS t)) (seq 0 200)).
    set (fg := [ILine "plot" pts; ILine "plot" crv; IStyle "grid"; IText "xlabel" "Active Variable Value"; IText "ylabel" "Output"]%string).
    exists RS, fg, (PP [] (sh ++ l ++ [fg]) fs d). split.
    { unfold cell15. erewrite nb by (apply attr_ev; exact HA). rewrite Ey. erewrite (nb (mlift (Ok y))) by reflexivity.
      rewrite ER. erewrite (nb (mlift (Ok RS))) by reflexivity.
      erewrite nb by (apply onP_ev; apply figure_ev).
      assert (EY0 : exists y0, linspace (-2) 2 200 = Ok y0 /\ shape y0 = [200%nat] /\ forall i, y0.[i] = -2 + 4 * INR i / 199).
      { eexists. split; [reflexivity|]. split; [reflexivity|]. intros i.
        assert (Q : INR (200 - 1) = 199) by (rewrite INR_IZR_INZ; reflexivity).
        transitivity (-2 + INR i * ((2 - -2) / INR (200 - 1))); [reflexivity|]. rewrite Q. field. }
      destruct EY0 as (y0 & EY0 & SY0 & VY0). rewrite EY0. erewrite (nb (mlift (Ok y0))) by reflexivity.
      assert (SZ : size y0 = 200%nat) by (unfold size; rewrite SY0; reflexivity). rewrite SZ.
      destruct (surface_predict RS (mk2 200 1 (fun i _ => y0.[i])) 200 QS eq_refl) as (F1 & E1 & S1 & V1).
      rewrite E1. erewrite (nb (mlift (Ok (F1, None)))) by reflexivity.
      rewrite (column_ok y N 1 0 Sy ltac:(lia)). erewrite (nb (mlift (Ok _))) by reflexivity.
      rewrite (column_ok F N 1 0 SF ltac:(lia)). erewrite (nb (mlift (Ok _))) by reflexivity.
      erewrite nb by (apply onP_ev; apply plot_ev; rewrite !map_length; reflexivity).
      rewrite (column_ok F1 200 1 0 S1 ltac:(lia)). erewrite (nb (mlift (Ok _))) by reflexivity.
      erewrite nb by (apply onP_ev; apply plot_ev; rewrite !map_length; reflexivity).
      erewrite nb by (apply onP_ev; apply draws_ev).
      erewrite nb by (apply onP_ev; apply show_ev).
      unfold mret. f_equal. f_equal. f_equal. f_equal. f_equal. f_equal. rewrite !app_nil_l. cbn [app]. unfold fg. 
      assert (P1 : combine (map (fun i => y.[i, 0%nat]) (seq 0 N)) (map (fun i => F.[i, 0%nat]) (seq 0 N)) = pts).
      { unfold pts. rewrite combine_map_seq. apply map_ext. intros i. now rewrite Vy. }
      assert (P2 : combine (map (fun i => y0.[i]) (seq 0 200)) (map (fun i => F1.[i, 0%nat]) (seq 0 200)) = crv).
      { unfold crv. rewrite combine_map_seq. apply map_ext_in. intros i Hi. apply in_seq in Hi. rewrite V1 by lia. rewrite at_mk2, VY0. reflexivity. }
      rewrite P1, P2. reflexivity. }
    split; [exact FT|]. split; [split; [reflexivity|split; [reflexivity|cbn [p_files]; now rewrite app_nil_r]]|]. split; reflexivity.
  Qed.

  (** with two active variables the grid of cell 15 does not fit the surface *)
  Lemma cell15_two : forall N m XX F A (w : Wd) s p, (6 <= N)%nat -> shape XX = [N; m] -> shape F = [N; 1%nat] -> s_W1 s = Some A -> shape A = [m; 2%nat] ->
    cell15 lstsq XX F ((w, s), p) = (Err ValueError, ((w, s), PP (p_open p ++ [[]]) (p_shown p) (p_files p) (p_dir p))).
  Proof.
    intros N m XX F A w s p HN SX SF HA SA.
    destruct (npdot2_ex XX A N m 2 SX SA) as (y & Ey & Sy & Vy).
    destruct (poly_train_inv lstsq HL 2 y F None N 2 Sy SF ltac:(lia) ltac:(lia) I) as (L & EL & _ & HT & HTT).
    injection EL as <-. destruct (HTT ltac:(cbn; lia) HLT) as (RS & ER). specialize (HT _ ER).
    unfold cell15. erewrite nb by (apply attr_ev; exact HA). rewrite Ey. erewrite (nb (mlift (Ok y))) by reflexivity.
    rewrite ER. erewrite (nb (mlift (Ok RS))) by reflexivity.
    erewrite nb by (apply onP_ev; reflexivity).
    erewrite (nb (mlift (linspace (-2) 2 200))) by reflexivity.
    apply nberr. unfold mlift. f_equal.
    assert (SW := t_w _ _ _ _ _ _ _ _ HT). cbn [List.length] in SW. assert (EN := t_N _ _ _ _ _ _ _ _ HT).
    unfold poly_predict. match goal with |- context [process_inputs ?X] => rewrite (process_inputs_eq _ X 200 1 eq_refl) end. cbn [rbind].
    rewrite EN. match goal with |- context [polynomial_bases ?X 2] => destruct (polynomial_bases_ok X 2 200 1 eq_refl ltac:(lia)) as (L' & EL' & EB) end.
    rewrite EB. rewrite index_set_2_1 in EL'. injection EL' as <-. cbn [rbind]. unfold mdot. rewrite SW. reflexivity.
  Qed.
End Later.

Lemma uniforms_eq : forall (G : gen) lo hi k (s : gst G),
  (forall i, (i < k)%nat -> nth i (fst (uniforms lo hi k s)) 0 = lo + (hi - lo) * unif_at s i) /\ snd (uniforms lo hi k s) = unif_state k s.
Proof.
  intros G lo hi k s. set (w := World s tt (@nil (nd R)) 0 : world G unit (nd R)).
  assert (E1 := repeat_uniforms G unit (nd R) lo hi k w). assert (E2 := repeat_unif G lo hi k w). rewrite E1 in E2.
  assert (Q1 := f_equal fst E2). assert (Q2 := f_equal (fun r => rng (snd r)) E2). cbn [fst snd rng set_rng w] in Q1, Q2. injection Q1 as Q1. split; [|exact Q2].
  intros i Hi. rewrite Q1. now rewrite (nth_map_seq0 (fun k => lo + (hi - lo) * unif_at s k)) by auto.
Qed.

(** the number of points behind the weights of the bins *)
Definition points : nat := Z.to_nat 10000.
Lemma points_Z : Z.of_nat points = 10000%Z.
Proof. apply Z2Nat.id. lia. Qed.
Lemma points_R : INR points = 10000.
Proof. now rewrite INR_IZR_INZ, points_Z. Qed.
Lemma points_pos : (1 <= points)%nat.
Proof. pose proof points_Z. lia. Qed.
Opaque points.

Section Domain.
  Context {G : gen} {U : Type}.
  Notation Wd := (world G U (nd R)).
  Notation NB := ((Wd * subspaces) * pyplot)%type.
  Variable B : backend.
  Variable convex_hull : nd R -> res (nd R).
  Variable eig : nd R -> res (nd R * nd R).
  Variable argsort : list R -> list nat.
  Variable delaunay : nd R -> res (list (list nat) * (nd R -> list Z)).
  Variable fminbound : (R -> res R) -> R -> R -> res (R * R * bool).

  (** the domain of one active variable *)
  Definition interval_of (m : nat) (s : subspaces) (A : nd R) (d : avdomain) : Prop :=
    d_kind d = DBounded /\ d_subs d = s /\ d_m d = m /\ d_n d = 1%nat /\
    exists vY vX, d_vertY d = Some vY /\ d_vertX d = Some vX /\ interval_endpoints A = Ok (vY, vX).

  Lemma cell17_ev : forall m A (w : Wd) s p, s_W1 s = Some A -> shape A = [m; 1%nat] ->
    exists d, cell17 convex_hull ((w, s), p) = (Ok d, ((w, s), p)) /\ interval_of m s A d.
  Proof.
    intros m A w s p HA SA. destruct (C23_interval_endpoints A m SA) as (Y & X & E & _).
    eexists. split.
    - unfold cell17. erewrite nb by (apply onS_ev; reflexivity). apply onW_ev. cbn [snd]. unfold bounded_domain. rewrite HA.
      unfold shape2. rewrite SA. erewrite (nb (mlift (Ok _))) by reflexivity. unfold compute_boundary. cbn [d_subs]. rewrite HA.
      erewrite (nb (mlift (need (Some A)))) by reflexivity. unfold shape2. rewrite SA. erewrite (nb (mlift (Ok _))) by reflexivity.
      cbn [Nat.eqb]. rewrite E. erewrite (nb (mlift (Ok _))) by reflexivity. reflexivity.
    - repeat (split; [reflexivity|]). exists Y, X. auto.
  Qed.

  (** the published range of the active variable *)
  Definition reach (m : nat) (A : nd R) : R := sumf m (fun i => Rabs (A.[i, 0%nat])).

  (** the mean of the surface over equal bins of the interval, weighted with the
      fraction of 10000 random points of the cube in each *)
  Definition bin_mean (m : nat) (A : nd R) (RS : poly) (NQ : nat) (us : nat -> R) (mu : R) : Prop :=
    let y s := sumf m (fun c => us (s * m + c)%nat * A.[c, 0%nat]) in
    let e i := - reach m A + INR i * (2 * reach m A / INR NQ) in
    exists c : nat -> nat, (forall i, (i < NQ)%nat -> number points (c i) (fun s => in_bin e NQ i (y s))) /\
      sumf NQ (fun i => INR (c i) / 10000) = 1 /\ (forall s, (s < points)%nat -> - reach m A <= y s <= reach m A) /\
      mu = sumf NQ (fun i => INR (c i) / 10000 * surface RS ((e i + e (S i)) / 2)).

  Lemma sim_run_surface : forall RS Yp q (w : Wd), quadratic_surface RS -> shape Yp = [q; 1%nat] ->
    exists F w', sim_run (surface_fun RS) Yp w = (Ok F, w') /\ shape F = [q; 1%nat] /\ rng w' = rng w /\ forall i, (i < q)%nat -> F.[i, 0%nat] = surface RS (Yp.[i, 0%nat]).
  Proof.
    intros RS Yp q w HR SY.
    assert (SR : forall i (u : U), exists v, surface_fun RS (rowarr Yp i) u = (Ok v, u) /\ size v = 1%nat /\ flat v 0 = surface RS (Yp.[i, 0%nat])).
    { intros i u. destruct (surface_predict RS (rowarr Yp i) 1 HR) as (F & EF & SF & VF).
      { unfold rowarr. rewrite (ncols_shape2 _ Yp q 1 SY). reflexivity. }
      exists F. unfold surface_fun. rewrite EF. split; [reflexivity|]. split; [unfold size; rewrite SF; reflexivity|].
      unfold flat. rewrite SF. cbn [unravel prodn]. change (F.[0%nat, 0%nat] = surface RS (Yp.[i, 0%nat])). rewrite VF by lia.
      unfold rowarr. now rewrite at_mk2. }
    destruct (sim_run_trace (surface_fun RS) Yp q 1 w SY) as (us & Hus & [(F & w' & E & SF & Ew & V)|(k & er & w' & Hk & E & _ & Hpre & [Hbad|(v & Hv & Hsz & _)])]).
    - exists F, w'. split; [exact E|]. split; [exact SF|]. split; [now rewrite Ew|]. intros i Hi. destruct (V i Hi) as (v & E1 & _ & ->).
      destruct (SR i (us i)) as (v' & E2 & _ & Q). rewrite E1 in E2. injection E2 as <- _. exact Q.
    - exfalso. destruct (SR k (us k)) as (v' & E2 & _). rewrite Hbad in E2. discriminate.
    - exfalso. destruct (SR k (us k)) as (v' & E2 & Q & _). rewrite Hv in E2. injection E2 as <- _. lia.
  Qed.

  Lemma av_integrate_surface : forall m A s d RS NQ (w : Wd), quadratic_surface RS -> s_W1 s = Some A -> shape A = [m; 1%nat] -> interval_of m s A d -> (1 <= NQ)%nat ->
    exists mu w', av_integrate B convex_hull eig argsort delaunay (AVFun (IsA (surface_fun RS))) (IsA (AVM MBounded d)) (IsA (Z.of_nat NQ)) w = (Ok mu, w') /\
      rng w' = unif_state (points * m) (rng w) /\ bin_mean m A RS NQ (fun k => -1 + 2 * unif_at (rng w) k) mu.
  Proof.
    intros m A s d RS NQ w HR HA SA (K1 & K2 & K3 & K4 & vY & vX & K5 & K6 & K7) HNQ.
    assert (WD : s_W1 (d_subs d) = Some A) by (rewrite K2; exact HA).
    destruct (C23_interval_endpoints A m SA) as (Y & X & E & SY & SX & HY). rewrite K7 in E. injection E as <- <-.
    destruct HY as (_ & Y1 & Y2 & _). fold (reach m A) in Y2.
    destruct (C44_interval_rule G U d m A vY vX NQ points w WD SA K7 K5 HNQ points_pos) as (P & Q & EQ & SP & SQ & E0 & EN & RY & VP & VQ & QP & QS).
    rewrite points_Z in EQ.
    destruct (sim_run_surface RS P NQ (set_rng w (snd (uniforms (-1) 1 (points * m) (rng w)))) HR SP) as (F & w' & EF & SF & RF & VF).
    assert (SQT : shape (tr Q) = [1%nat; NQ]) by (unfold tr; rewrite (nrows_shape2 _ Q NQ 1 SQ), (ncols_shape2 _ Q NQ 1 SQ); reflexivity).
    destruct (npdot2_ex (tr Q) F 1 NQ 1 SQT SF) as (z & Ez & Sz & Vz).
    exists (z.[0%nat, 0%nat]), w'. split.
    { unfold av_integrate, av_quadrature_rule. cbn [av_domain]. rewrite WD. 
      erewrite nb.
      2: { erewrite (nb (mlift (need (Some A)))) by reflexivity. unfold shape2. rewrite SA. erewrite (nb (mlift (Ok _))) by reflexivity.
           rewrite K1. cbn [Nat.eqb]. exact EQ. }
      cbn beta iota. erewrite nb.
      2: { unfold SimulationRunner_init. erewrite (nb (mlift (Ok _))) by reflexivity. exact EF. }
      rewrite Ez. erewrite (nb (mlift (Ok z))) by reflexivity. unfold mlift, get2. rewrite Sz. reflexivity. }
    pose proof (uniforms_eq G (-1) 1 (points * m) (rng w)) as (UN & US).
    split; [rewrite RF; cbn [rng set_rng]; exact US|].
    assert (EB : forall i, vY.[0%nat, 0%nat] + INR i * ((vY.[1%nat, 0%nat] - vY.[0%nat, 0%nat]) / INR NQ) = - reach m A + INR i * (2 * reach m A / INR NQ)).
    { intros i. assert (Q0 : vY.[0%nat, 0%nat] = - reach m A) by lra. rewrite Q0, Y2. f_equal. f_equal. f_equal. ring. }
    assert (NT := points_R).
    assert (UV : forall s, (s < points)%nat -> sumf m (fun c => nth (s * m + c) (fst (uniforms (-1) 1 (points * m) (rng w))) 0 * A.[c, 0%nat]) =
      sumf m (fun c => (-1 + 2 * unif_at (rng w) (s * m + c)) * A.[c, 0%nat])).
    { intros s' Hs. apply sumf_ext. intros c Hc. rewrite UN by nia. replace (1 - -1) with 2 by ring. reflexivity. }
    unfold bin_mean. cbv zeta.
    assert (CH : exists c : nat -> nat, forall i, (i < NQ)%nat -> Q.[i, 0%nat] = INR (c i) / INR points /\
      number points (c i) (fun s => in_bin (fun i => - reach m A + INR i * (2 * reach m A / INR NQ)) NQ i (sumf m (fun c => (-1 + 2 * unif_at (rng w) (s * m + c)) * A.[c, 0%nat])))).
    { apply (finite_choice nat 0%nat NQ (fun i c => Q.[i, 0%nat] = INR c / INR points /\
      number points c (fun s => in_bin (fun i => - reach m A + INR i * (2 * reach m A / INR NQ)) NQ i (sumf m (fun c => (-1 + 2 * unif_at (rng w) (s * m + c)) * A.[c, 0%nat]))))). intros i Hi. destruct (VQ i Hi) as (c & Hc & (l & ND & LC & HI)). exists c. split; [exact Hc|]. exists l. split; [exact ND|]. split; [exact LC|].
      intros s'. rewrite HI. unfold in_bin. rewrite !EB. split; intros (Hs & HH); (split; [exact Hs|]); [rewrite <- UV by exact Hs|rewrite UV by exact Hs]; exact HH. }
    destruct CH as (c & CH). exists c. split; [intros i Hi; apply CH; exact Hi|]. split.
    { rewrite <- QS. apply sumf_ext. intros i Hi. rewrite (proj1 (CH i Hi)), NT. reflexivity. }
    split.
    { intros s' Hs. rewrite <- UV by exact Hs. pose proof (RY s' Hs). lra. }
    rewrite Vz. apply sumf_ext. intros i Hi. rewrite VF, VP by exact Hi. rewrite !EB.
    unfold tr. rewrite at_mk2. rewrite (proj1 (CH i Hi)), NT. reflexivity.
  Qed.

  (** the sample mean and its standard error *)
  Definition monte_carlo (K : nat) (us : nat -> R) (X : nd R) (mean error : R) : Prop :=
    shape X = [K; 10%nat] /\ (forall i j, (i < K)%nat -> (j < 10)%nat -> X.[i, j] = hi j - (hi j - lo j) * us (i * 10 + j)%nat) /\
    mean = sumf K (fun i => weight (fun j => X.[i, j])) / INR K /\
    error = sqrt (sumf K (fun i => (weight (fun j => X.[i, j]) - mean) ^ 2) / (INR K - 1)) / sqrt (INR K).

  Lemma cell19_ev : forall m A s d RS NQ K lb ub (w : Wd) p, quadratic_surface RS -> s_W1 s = Some A -> shape A = [m; 1%nat] -> interval_of m s A d -> (1 <= NQ)%nat -> (2 <= K)%nat ->
    limits lb ub ->
    exists mu X mean error w', cell19 argsort B convex_hull eig delaunay (Z.of_nat NQ) K RS d lb ub ((w, s), p) = (Ok (mu, X, mean, error), ((w', s), p)) /\
      bin_mean m A RS NQ (fun k => -1 + 2 * unif_at (rng w) k) mu /\ monte_carlo K (fun k => unif_at (rng w) (points * m + k)) X mean error.
  Proof.
    intros m A s d RS NQ K lb ub w p HR HA SA HI HNQ HK LM.
    destruct (av_integrate_surface m A s d RS NQ w HR HA SA HI HNQ) as (mu & w1 & E1 & R1 & BM).
    destruct (uniform2_ev G (-1) 1 K 10 w1) as (X0 & E2 & S2 & V2).
    destruct (physical_ok lb ub X0 K LM S2) as (X & E3 & S3 & V3).
    destruct (proj2 C70_wing K X S3) as (F & E4 & S4 & V4).
    assert (VX : forall i j, (i < K)%nat -> (j < 10)%nat -> X.[i, j] = hi j - (hi j - lo j) * unif_at (rng w) (points * m + (i * 10 + j))).
    { intros i j Hi Hj. rewrite V3, V2, R1, unif_at_add by auto. field. }
    assert (VF : forall i, (i < K)%nat -> F.[i, 0%nat] = weight (fun j => X.[i, j])).
    { intros i Hi. apply (V4 i Hi). apply sampled_box. intros j Hj. exists (1 - unif_at (rng w) (points * m + (i * 10 + j))).
      pose proof (unif_at_range G (rng w) (points * m + (i * 10 + j))). split; [lra|]. rewrite VX by auto. ring. }
    assert (EM : mc_mean K F = sumf K (fun i => weight (fun j => X.[i, j])) / INR K).
    { unfold mc_mean. f_equal. apply sumf_ext. exact VF. }
    exists mu, X, (mc_mean K F), (mc_error K F). eexists. split.
    { unfold cell19. erewrite nb by (apply onW_ev; exact E1). erewrite nb by (apply onW_ev; exact E2).
      rewrite E3. erewrite (nb (mlift (Ok X))) by reflexivity. rewrite E4. erewrite (nb (mlift (Ok F))) by reflexivity. reflexivity. }
    split; [exact BM|]. split; [exact S3|]. split; [exact VX|]. split; [exact EM|].
    unfold mc_error. rewrite minus_INR by lia. change (INR 1) with 1. f_equal. f_equal. f_equal. apply sumf_ext. intros i Hi. rewrite VF by auto. ring.
  Qed.

  Lemma onW_err : forall {A} (m : M Wd A) w s p e w', m w = (Err e, w') -> onW m ((w, s), p) = (Err e, ((w', s), p)).
  Proof. intros A m w s p e w' H. unfold onW, onS, liftW. cbn [fst snd]. rewrite H. reflexivity. Qed.

  (** scipy's bounded search, when it converges on functions without errors *)
  Definition fmin_converges : Prop := forall g a b, a <= b -> (forall y, exists v, g y = Ok v) ->
    exists y v, fminbound g a b = Ok (y, v, false) /\ a <= y <= b /\ g y = Ok v.

  Lemma surface_at_ok : forall RS t, quadratic_surface RS -> surface_at RS (ND [] (fun _ => t)) = Ok (surface RS t).
  Proof.
    intros RS t HR. unfold surface_at.
    destruct (reshape_ok _ [1%nat; 1%nat] (ND [] (fun _ => t))) as (Y & EY & SY & VY); [reflexivity|]. rewrite EY. cbn [rbind].
    destruct (surface_predict RS Y 1 HR SY) as (F & EF & SF & VF). rewrite EF. cbn [rbind]. unfold get2. rewrite SF. cbn [Nat.ltb Nat.leb andb].
    f_equal. rewrite VF by lia. f_equal. injection EY as <-. reflexivity.
  Qed.

  Lemma cell21_ev : forall m A s d RS (w : Wd) p, quadratic_surface RS -> s_W1 s = Some A -> shape A = [m; 1%nat] -> interval_of m s A d ->
    let f y := surface_at RS (ND [] (fun _ => y)) in
    (forall y v, fminbound f (- reach m A) (reach m A) = Ok (y, v, false) -> cell21 B fminbound RS d ((w, s), p) = (Ok (y, v), ((w, s), p))) /\
    (forall y v, fminbound f (- reach m A) (reach m A) = Ok (y, v, true) ->
       cell21 B fminbound RS d ((w, s), p) = (Err (Exc "Max function values used in fminbound."), ((w, s), p))).
  Proof.
    intros m A s d RS w p HR HA SA (K1 & K2 & K3 & K4 & vY & vX & K5 & K6 & K7) f.
    assert (WD : s_W1 (d_subs d) = Some A) by (rewrite K2; exact HA).
    destruct (C23_interval_endpoints A m SA) as (Y & X & E & SY & SX & HY). rewrite K7 in E. injection E as <- <-.
    destruct HY as (_ & Y1 & Y2 & _). fold (reach m A) in Y2. assert (Y0 : vY.[0%nat, 0%nat] = - reach m A) by lra.
    destruct (C47_interval_minimize fminbound (surface_at RS) d vY 0 K5 SY) as (H1 & H2 & _). rewrite Y0, Y2 in H1, H2. cbv zeta in H1, H2. fold f in H1, H2.
    assert (RUN : av_minimize B fminbound (surface_at RS) d None w =
      (dom (x, fstar) <- (dom (y, fv) <- mlift (interval_minimize fminbound (surface_at RS) d); mret (XArr y, fv)); dom ystar <- mlift (row_of x); mret (ystar, fstar)) w).
    { unfold av_minimize. rewrite K1, WD. unfold mbind at 1. unfold need. unfold mlift at 1. unfold mbind at 1. unfold shape2. rewrite SA. unfold mlift at 1. unfold mbind at 1. cbn [Nat.eqb]. reflexivity. }
    split.
    - intros y v E. destruct (H1 y v E) as (Z & EZ & SZ & VZ). rewrite EZ in RUN.
      assert (EI := EZ). unfold interval_minimize in EI. rewrite K5 in EI. cbv zeta in EI. fold f in EI. unfold get2 in EI. rewrite SY in EI.
      cbn [Nat.ltb Nat.leb andb rbind] in EI. rewrite Y0, Y2, E in EI. cbn [rbind] in EI. injection EI as <-.
      assert (RUN2 : exists Z', av_minimize B fminbound (surface_at RS) d None w = (Ok (Z', v), w) /\ get2 Z' 0 0 = Ok y).
      { eexists. split; [rewrite RUN; reflexivity|]. reflexivity. }
      destruct RUN2 as (Z' & R2 & G2). unfold cell21. rewrite (nb _ _ _ _ _ (onW_ev _ _ _ _ _ _ R2)). cbn beta iota. rewrite G2. reflexivity.
    - intros y v E. rewrite (H2 y v E) in RUN. unfold cell21. apply nberr. exact (onW_err _ _ _ _ _ _ RUN).
  Qed.
End Domain.
