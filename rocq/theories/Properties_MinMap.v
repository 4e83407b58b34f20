(** Final theorems for optimizers.py, continued: C49 and C50 (MinVariableMap) *)
From Coq Require Import String Reals Lra Lia List Arith ZArith Bool Classical.
From Verif Require Import Prelude Py NumArr Toy Lsq SolveRef M_Misc M_RespSurf M_Gradients M_Subspaces M_QP M_Domains M_Designs M_ASRS M_Optimizers
  P_Misc P_QP P_Rbf P_Poly P_PolyFacts P_PolyTrain P_DomSample P_Domains P_Multistart P_Optimizers Properties_RespSurf Properties_QP Properties_Domains Properties_Designs Properties_ASRS Properties_Optimizers.
Import ListNotations.
Open Scope R_scope.

(** ** training returns *)
Lemma mvm_train_returns : forall lstsq d m n Wm W1 W2 X f M, lstsq_contract lstsq -> lstsq_total lstsq -> frame (d_subs d) m n Wm W1 W2 -> (1 <= m)%nat ->
  shape X = [M; m] -> shape f = [M; 1%nat] -> (let p := Nat.min (mvm_p m n) m in (binom (2 + p) p <= M)%nat) -> exists v, mvm_train lstsq d X f = Ok v.
Proof.
  intros lstsq d m n Wm W1 W2 X f M HL HT F Hm SX Sf. cbv zeta. set (p := Nat.min (mvm_p m n) m). set (k := (m - n)%nat). intros HB.
  pose proof (fr_sW _ _ _ _ _ _ F) as SW. pose proof (fr_s1 _ _ _ _ _ _ F) as S1. pose proof (fr_s2 _ _ _ _ _ _ F) as S2. pose proof (fr_le _ _ _ _ _ _ F) as Hle. fold k in S2.
  assert (Hp : (1 <= p)%nat) by (unfold p, mvm_p; destruct (Nat.ltb 2 (m - n)); lia).
  destruct (mvm_train lstsq d X f) as [v|e] eqn:H; [now exists v|exfalso].
  unfold mvm_train in H. rewrite (process_io_eq _ X f M m SX Sf) in H. cbn [rbind] in H.
  rewrite (fr_1 _ _ _ _ _ _ F), (fr_2 _ _ _ _ _ _ F), (fr_W _ _ _ _ _ _ F) in H. cbn [need rbind] in H. unfold shape2 in H at 1. rewrite S1 in H. cbn [rbind] in H.
  assert (SP : shape (cols_slice Wm 0 (mvm_p m n)) = [m; p]).
  { unfold cols_slice, p. cbn [shape mk2]. rewrite (nrows_shape2 _ Wm _ _ SW), (ncols_shape2 _ Wm _ _ SW), Nat.sub_0_r. reflexivity. }
  set (Wp := cols_slice Wm 0 (mvm_p m n)) in *. clearbody Wp. clearbody p.
  dot H M m p Yp SY VY.
  destruct (C38_training_returns lstsq 2 Yp f None M p HL HT SY Sf Hp ltac:(lia) I HB) as (pr & EP). rewrite EP in H. cbn [rbind] in H.
  destruct (C38_gradient_and_hessian lstsq 2 Yp f None M p pr HL SY Sf Hp ltac:(lia) I EP) as (Sg & _ & _ & K2).
  destruct (K2 ltac:(lia)) as (HH & EH & SH & _). clear K2. rewrite EH in H. cbn [need rbind] in H.
  dot H m p 1%nat b Sb Vb.
  assert (ST : shape (tr Wp) = [p; m]) by (unfold tr; cbn [shape mk2]; now rewrite (nrows_shape2 _ Wp _ _ SP), (ncols_shape2 _ Wp _ _ SP)).
  assert (ST2 : shape (tr W2) = [k; m]) by (unfold tr; cbn [shape mk2]; now rewrite (nrows_shape2 _ W2 _ _ S2), (ncols_shape2 _ W2 _ _ S2)).
  dot H p p m AW SAW VAW. dot H m p m A SA VA. dot H k m 1%nat bz Sbz Vbz. dot H m m n AW1 SAW1 VAW1. dot H k m n zAy SzAy VzAy. dot H m m k AW2 SAW2 VAW2. dot H k m k zAz SzAz VzAz.
  rewrite (proj2 (Nat.leb_le n m) Hle) in H. cbn [guard rbind] in H. fold k in H.
  destruct (bcast2_same _ _ _ Rplus zAz (amap (fun x => 1 / 100 * x) (eye k)) k k SzAz eq_refl) as (Q & EQ & SQ & VQ).
  rewrite EQ in H. discriminate.
Qed.

(** ** the example: two inputs, the first active; data alpha z + beta z^2 *)
Definition I2 : nd R := mat_of [[1; 0]; [0; 1]].
Definition I21 : nd R := mat_of [[1]; [0]].
Definition I22 : nd R := mat_of [[0]; [1]].
Definition sub2 : subspaces := Subs None (Some I2) (Some I21) (Some I22) None None.
Lemma frame2 : frame sub2 2 1 I2 I21 I22.
Proof.
  split; try reflexivity; try lia.
  all: intros a b Ha Hb; destruct a as [|[|a]]; try lia; destruct b as [|[|b]]; try lia; simpl; lra.
Qed.
Definition dom2 (k : dkind) : avdomain :=
  match k with DBounded => AVD k sub2 2 1 (Some (mat_of [[-1]; [1]])) (Some (mat_of [[-1; 0]; [1; 0]])) None None | _ => AVD k sub2 2 1 None None None None end.
Lemma dom2_subs : forall k, frame (d_subs (dom2 k)) 2 1 I2 I21 I22.
Proof. intros k. destruct k; exact frame2. Qed.
Definition data2 (al be : R) : nd R := mk2 6 1 (fun r _ => al * X38.[r, 1%nat] + be * (X38.[r, 1%nat] * X38.[r, 1%nat])).

Lemma data2_rank : forall Yp B L, shape Yp = [6%nat; 2%nat] -> (forall r j, (r < 6)%nat -> (j < 2)%nat -> Yp.[r, j] = X38.[r, j]) ->
  polynomial_bases Yp 2 = Ok (B, L) -> full_rank 6 (ncols B) (fun r i => B.[r, i]).
Proof.
  intros Yp B L SY VY E. destruct (polynomial_bases_ok Yp 2 6 2 SY ltac:(lia)) as (L' & EL & EB). rewrite EB in E.
  assert (EL2 : index_set 2 2 = Ok [[0; 0]; [1; 0]; [0; 1]; [2; 0]; [1; 1]; [0; 2]]%nat) by reflexivity.
  rewrite EL2 in EL. assert (E3 : L' = [[0; 0]; [1; 0]; [0; 1]; [2; 0]; [1; 1]; [0; 2]]%nat) by congruence. clear EL EB EL2.
  assert (EB : B = mk2 6 (length L') (fun r i => mono 2 (nth i L' []) (fun j => Yp.[r, j]))) by congruence. clear E.
  rewrite EB, E3. clear EB E3. unfold ncols. cbn [shape mk2 nth length]. intros x Hx.
  assert (HX : forall r, (r < 6)%nat -> sumf 6 (fun j => mono 2 (nth j [[0; 0]; [1; 0]; [0; 1]; [2; 0]; [1; 1]; [0; 2]]%nat []) (fun j => X38.[r, j]) * x j) = 0).
  { intros r Hr. rewrite <- (Hx r Hr). apply sumf_ext. intros j Hj. rewrite at_mk2. f_equal. unfold mono. apply prodf_ext. intros a Ha. now rewrite VY. }
  pose proof (HX 0%nat ltac:(lia)) as H0. pose proof (HX 1%nat ltac:(lia)) as H1. pose proof (HX 2%nat ltac:(lia)) as H2.
  pose proof (HX 3%nat ltac:(lia)) as H3. pose proof (HX 4%nat ltac:(lia)) as H4. pose proof (HX 5%nat ltac:(lia)) as H5. clear Hx HX VY.
  unfold mono, X38, mat_of in H0, H1, H2, H3, H4, H5. cbn [sumf prodf nth at_ mk2 pow] in H0, H1, H2, H3, H4, H5.
  intros j Hj. destruct j as [|[|[|[|[|[|j]]]]]]; try lia; lra.
Qed.

Definition e2 (t j : nat) : nat := match j with 1%nat => S t | _ => 0%nat end.
Definition a2 (al be : R) (t : nat) : R := match t with O => al | _ => be end.
Lemma data2_fit : forall lstsq al be pr, lstsq_contract lstsq -> fitted lstsq X38 (data2 al be) I2 6 2 2 pr ->
  forall u, poly_value pr 2 u = al * u 1%nat + be * (u 1%nat * u 1%nat).
Proof.
  intros lstsq al be pr HL (Yp & SY & VY & EP) u.
  assert (VX : forall r j, (r < 6)%nat -> (j < 2)%nat -> Yp.[r, j] = X38.[r, j]).
  { intros r j Hr Hj. rewrite VY by auto. destruct j as [|[|j]]; try lia; cbn [sumf]; unfold I2, mat_of; cbn [at_ mk2 nth]; ring. }
  destruct (C38_reproduces_polynomials lstsq 2 Yp (data2 al be) None 6 2 pr 2 (a2 al be) e2 HL SY eq_refl ltac:(lia) ltac:(lia) I EP) with (Y := pt 2 u) (P := 1%nat) as (F & EF & _ & VF).
  - intros B L E. exact (data2_rank Yp B L SY VX E).
  - intros t Ht. destruct t as [|[|t]]; cbn; lia.
  - intros r Hr. unfold data2. rewrite at_mk2. unfold terms_eval. cbn [sumf prodf e2 a2 pow]. rewrite VX by lia. ring.
  - reflexivity.
  - unfold poly_value. rewrite EF, VF by lia. unfold terms_eval, pt. cbn [sumf prodf e2 a2 pow]. rewrite at_mk2. ring.
Qed.
Lemma data2_model : forall lstsq al be pr y z, lstsq_contract lstsq -> fitted lstsq X38 (data2 al be) I2 6 2 2 pr ->
  min_model pr 2 2 1 I2 I21 I22 y z = al * z 0%nat + (be + 1 / 200) * (z 0%nat * z 0%nat).
Proof.
  intros lstsq al be pr y z HL HF. unfold min_model. rewrite (data2_fit lstsq al be pr HL HF).
  unfold xpt, I2, I21, I22, mat_of. cbn [sumf at_ mk2 nth Nat.sub]. lra.
Qed.

(** ** the maps return *)
Lemma mmap_all : forall W A C (f : A -> M W C) l (w : W), (forall x, In x l -> exists y, f x w = (Ok y, w)) -> exists ys, mmap f l w = (Ok ys, w) /\ List.length ys = List.length l.
Proof.
  intros W A C f. induction l as [|x l IH]; intros w H; cbn [mmap].
  - exists []. split; reflexivity.
  - destruct (H x (or_introl eq_refl)) as (y & E). destruct (IH w (fun x I0 => H x (or_intror I0))) as (ys & E2 & EL).
    exists (y :: ys). unfold mbind. rewrite E, E2. split; [reflexivity|simpl; lia].
Qed.

Section Returns.
  Context {G : gen} {U L : Type}.
  Notation W := (world G U L).

  Lemma umvm_returns : forall solve d m n Wm W1 W2 v Y NY (w : W), solve_contract solve -> frame (d_subs d) m n Wm W1 W2 -> shape Y = [NY; n] ->
    shape (mv_bz v) = [(m - n)%nat; 1%nat] -> shape (mv_zAy v) = [(m - n)%nat; n] -> shape (mv_zAz v) = [(m - n)%nat; (m - n)%nat] -> nonsingular (m - n) (mv_zAz v) ->
    exists Z, umvm_regularize solve d v Y 1 w = (Ok Z, w).
  Proof.
    intros solve d m n Wm W1 W2 v Y NY w HS F SY Sb SA SQ HN. set (k := (m - n)%nat) in *.
    unfold umvm_regularize. cbn [Z.eqb Pos.eqb negb]. unfold mbind at 1, mlift at 1. rewrite (fr_1 _ _ _ _ _ _ F). cbn [need].
    unfold mbind at 1, mlift at 1, shape2. rewrite (fr_s1 _ _ _ _ _ _ F). unfold mbind at 1, mlift at 1. rewrite (proj2 (Nat.leb_le n m) (fr_le _ _ _ _ _ _ F)). cbn [guard].
    rewrite (nrows_shape2 _ Y _ _ SY). fold k.
    match goal with |- context [mmap ?g (seq 0 NY)] => destruct (mmap_all _ _ _ g (seq 0 NY) w) as (zs & E & EL) end.
    { intros i _. unfold mbind, mlift. destruct (mvm_c_ok v (row1 Y i) k n Sb SA) as (c & Ec & Sc & Vc); [unfold row1; cbn [shape mk1]; now rewrite (ncols_shape2 _ Y _ _ SY)|].
      rewrite Ec. destruct (HS k 1%nat _ c SQ Sc HN) as (V & EV & _). rewrite EV. now exists V. }
    unfold mbind at 1. rewrite E. rewrite seq_length in EL. destruct (stack_z_ok zs NY k EL) as (Z0 & E0 & _). unfold mlift. rewrite E0. now exists Z0.
  Qed.

  Variable B : backend.
  Lemma bmvm_returns : forall d m n Wm W1 W2 v Y NY (w : W), frame (d_subs d) m n Wm W1 W2 -> shape Y = [NY; n] ->
    shape (mv_bz v) = [(m - n)%nat; 1%nat] -> shape (mv_zAy v) = [(m - n)%nat; n] ->
    (forall i c A b, (i < NY)%nat -> shape c = [(m - n)%nat; 1%nat] -> shape A = [(2 * m)%nat; (m - n)%nat] -> shape b = [(2 * m)%nat; 1%nat] ->
      (forall l, (l < m - n)%nat -> c.[l, 0%nat] = (mv_bz v).[l, 0%nat] + sumf n (fun j => (mv_zAy v).[l, j] * Y.[i, j])) ->
      (forall x, doc_ineq A b (2 * m) (m - n) x <-> in_cube m (xpt W1 W2 n (m - n) (fun j => Y.[i, j]) x)) ->
      exists z, quadratic_program_ineq B (qp_init B "GUROBI") c (mv_zAz v) A b w = (Ok z, w)) ->
    exists Z, bmvm_regularize B d v Y 1 w = (Ok Z, w).
  Proof.
    intros d m n Wm W1 W2 v Y NY w F SY Sb SA HK. set (k := (m - n)%nat) in *.
    pose proof (fr_s1 _ _ _ _ _ _ F) as S1. pose proof (fr_s2 _ _ _ _ _ _ F) as S2. fold k in S2.
    unfold bmvm_regularize. cbn [Z.eqb Pos.eqb negb]. unfold mbind at 1, mlift at 1. rewrite (fr_1 _ _ _ _ _ _ F). cbn [need].
    unfold mbind at 1, mlift at 1. rewrite (fr_2 _ _ _ _ _ _ F). cbn [need].
    unfold mbind at 1, mlift at 1, shape2. rewrite S1.
    unfold mbind at 1, mlift at 1, vstack at 1. cbn [amap shape]. rewrite S2, Nat.eqb_refl. set (A := mk2 (m + m) k _).
    unfold mbind at 1, mlift at 1. rewrite (proj2 (Nat.leb_le n m) (fr_le _ _ _ _ _ _ F)). cbn [guard].
    rewrite (nrows_shape2 _ Y _ _ SY). fold k.
    assert (VA1 : forall i j, (i < m)%nat -> A.[i, j] = W2.[i, j]).
    { intros i j Hi. unfold A. rewrite at_mk2. destruct (Nat.ltb_spec i m); [reflexivity|lia]. }
    assert (VA2 : forall i j, (i < m)%nat -> A.[(m + i)%nat, j] = - W2.[i, j]).
    { intros i j Hi. unfold A. rewrite at_mk2. destruct (Nat.ltb_spec (m + i) m); [lia|]. replace (m + i - m)%nat with i by lia. reflexivity. }
    assert (SAi : shape A = [(2 * m)%nat; k]) by (unfold A; cbn [shape mk2]; replace (m + m)%nat with (2 * m)%nat by lia; reflexivity). clearbody A.
    match goal with |- context [mmap ?g (seq 0 NY)] => destruct (mmap_all _ _ _ g (seq 0 NY) w) as (zs & E & EL) end.
    { intros i Hi. apply in_seq in Hi. assert (Sy : shape (row1 Y i) = [n]) by (unfold row1; cbn [shape mk1]; now rewrite (ncols_shape2 _ Y _ _ SY)).
      destruct (mvm_c_ok v (row1 Y i) k n Sb SA Sy) as (c & Ec & Sc & Vc).
      destruct (shift_of_ok W1 (row1 Y i) m n S1 Sy) as (s & Es & Ss & Vs). cbv zeta.
      unfold mbind at 1, mlift at 1. rewrite Ec. unfold mbind at 1, mlift at 1. rewrite Es.
      unfold mbind at 1, mlift at 1, vstack. cbn [amap shape]. rewrite Ss, Nat.eqb_refl. set (b := mk2 (m + m) 1 _).
      assert (Sb2 : shape b = [(2 * m)%nat; 1%nat]) by (unfold b; cbn [shape mk2]; replace (m + m)%nat with (2 * m)%nat by lia; reflexivity).
      assert (Vs' : forall a, (a < m)%nat -> s.[a, 0%nat] = sumf n (fun j => W1.[a, j] * Y.[i, j])).
      { intros a Ha. rewrite Vs by auto. apply sumf_ext. intros j Hj. unfold row1. now rewrite at_mk1. }
      assert (VB1 : forall a, (a < m)%nat -> b.[a, 0%nat] = -1 - s.[a, 0%nat]).
      { intros a Ha. unfold b. rewrite at_mk2. destruct (Nat.ltb_spec a m); [reflexivity|lia]. }
      assert (VB2 : forall a, (a < m)%nat -> b.[(m + a)%nat, 0%nat] = -1 + s.[a, 0%nat]).
      { intros a Ha. unfold b. rewrite at_mk2. destruct (Nat.ltb_spec (m + a) m); [lia|]. replace (m + a - m)%nat with a by lia. reflexivity. }
      clearbody b. apply (HK i c A b); auto; [lia|].
      intros x. assert (N1 : forall a, (a < m)%nat -> sumf k (fun j => A.[a, j] * x j) = sumf k (fun j => W2.[a, j] * x j)) by (intros; apply sumf_ext; intros; now rewrite VA1).
      assert (N2 : forall a, (a < m)%nat -> sumf k (fun j => A.[(m + a)%nat, j] * x j) = - sumf k (fun j => W2.[a, j] * x j)).
      { intros a Ha. rewrite <- sumf_opp. apply sumf_ext. intros j Hj. rewrite VA2 by auto. ring. }
      unfold doc_ineq, in_cube, xpt. split.
      - intros D a Ha. pose proof (D a ltac:(lia)) as D1. pose proof (D (m + a)%nat ltac:(lia)) as D2. rewrite VB1, N1, Vs' in D1 by auto. rewrite VB2, N2, Vs' in D2 by auto. lra.
      - intros D a Ha. destruct (Nat.lt_ge_cases a m) as [C|C].
        + specialize (D a C). rewrite VB1, N1, Vs' by auto. lra.
        + specialize (D (a - m)%nat ltac:(lia)). replace a with (m + (a - m))%nat by lia. rewrite VB2, N2, Vs' by lia. lra. }
    unfold mbind at 1. rewrite E. rewrite seq_length in EL. destruct (stack_z_ok zs NY k EL) as (Z0 & E0 & _). unfold mlift. rewrite E0. now exists Z0.
  Qed.
End Returns.

(** the trained attributes of the example *)
Lemma data2_trained : forall lstsq al be k v, lstsq_contract lstsq -> mvm_train lstsq (dom2 k) X38 (data2 al be) = Ok v ->
  shape (mv_bz v) = [1%nat; 1%nat] /\ shape (mv_zAy v) = [1%nat; 1%nat] /\ shape (mv_zAz v) = [1%nat; 1%nat] /\ (mv_zAz v).[0%nat, 0%nat] = 2 * be + 1 / 100 /\
  forall y, (mv_bz v).[0%nat, 0%nat] + (mv_zAy v).[0%nat, 0%nat] * y = al.
Proof.
  intros lstsq al be k v HL HT.
  destruct (mvm_train_spec lstsq (dom2 k) 2 1 I2 I21 I22 X38 (data2 al be) 6 v HL (dom2_subs k) ltac:(lia) eq_refl eq_refl HT) as (pr & FT & Sb & SA & SQ & QS & MV).
  change (Nat.min (mvm_p 2 1) 2) with 2%nat in *. change (2 - 1)%nat with 1%nat in *.
  do 3 (split; [assumption|]).
  assert (E : forall y z, al * z + (be + 1 / 200) * (z * z) = ((mv_bz v).[0%nat, 0%nat] + (mv_zAy v).[0%nat, 0%nat] * y) * z + / 2 * (z * (mv_zAz v).[0%nat, 0%nat] * z)).
  { intros y z. pose proof (MV (fun _ => y) (fun _ => z)) as E. rewrite !(data2_model lstsq al be pr _ _ HL FT) in E. cbn [sumf] in E. lra. }
  pose proof (E 0 1) as E1. pose proof (E 0 (-1)) as E2. split; [lra|]. intros y. pose proof (E y 1) as E3. pose proof (E y (-1)) as E4. lra.
Qed.
Lemma data2_ready : forall lstsq al be k, lstsq_contract lstsq -> lstsq_total lstsq -> exists v, mvm_train lstsq (dom2 k) X38 (data2 al be) = Ok v.
Proof.
  intros lstsq al be k HL HT. apply (mvm_train_returns lstsq (dom2 k) 2 1 I2 I21 I22 X38 (data2 al be) 6); auto; try reflexivity. apply dom2_subs.
Qed.

(** the hypotheses of C49_mirrored_partial: data z, any active value *)
Example C49_case : exists v, mvm_train lstsq_ref (dom2 DUnbounded) X38 (data2 1 0) = Ok v /\ forall w : world toy_gen unit unit, exists Z,
  umvm_regularize solve_ref (dom2 DUnbounded) v (mk2 1 1 (fun _ _ => 1 / 2)) 1 w = (Ok Z, w) /\ Z.[0%nat, 0%nat, 0%nat] = 100.
Proof.
  destruct (data2_ready lstsq_ref 1 0 DUnbounded lstsq_ref_contract lstsq_ref_total) as (v & HT). exists v.
  destruct (data2_trained lstsq_ref 1 0 DUnbounded v lstsq_ref_contract HT) as (Sb & SA & SQ & VQ & VC).
  set (Y := mk2 1 1 (fun _ _ => 1 / 2)).
  assert (NS : nonsingular (2 - 1) (mv_zAz v)).
  { intros x Hx i Hi. specialize (Hx 0%nat ltac:(lia)). cbn in Hx. rewrite VQ in Hx. replace i with 0%nat by lia. lra. }
  split; [exact HT|]. intros w.
  destruct (umvm_returns solve_ref (dom2 DUnbounded) 2 1 I2 I21 I22 v Y 1 w solve_ref_contract frame2 eq_refl Sb SA SQ NS) as (Z & EZ').
  exists Z. split; [exact EZ'|].
  destruct (umvm_spec solve_ref (dom2 DUnbounded) 2 1 I2 I21 I22 v Y 1 Z w w solve_ref_sound frame2 eq_refl Sb SA SQ EZ') as (_ & _ & V).
  specialize (V 0%nat 0%nat ltac:(lia) ltac:(lia)). cbn [sumf Nat.sub] in V. rewrite VQ in V. pose proof (VC (Y.[0%nat, 0%nat])). lra.
Qed.

(** C49 as stated is false: with the data z the trained model z + z^2/200 has
    its only stationary point at -100, the map returns 100 *)
Theorem C49_refuted : exists lstsq solve d X f v, lstsq_contract lstsq /\ solve_sound solve /\ frame (d_subs d) 2 1 I2 I21 I22 /\
  shape X = [6%nat; 2%nat] /\ shape f = [6%nat; 1%nat] /\ mvm_train lstsq d X f = Ok v /\
  forall (G : gen) (U L : Type) (w : world G U L) y, exists Z, umvm_regularize solve d v (mk2 1 1 (fun _ _ => y)) 1 w = (Ok Z, w) /\
  forall pr, fitted lstsq X f I2 6 2 2 pr -> let q := min_model pr 2 2 1 I2 I21 I22 (fun _ => y) in
    ~ derivable_pt_lim (fun t => q (fun j => Z.[0%nat, j, 0%nat] + if Nat.eqb j 0 then t else 0)) 0 0 /\
    exists z, q z < q (fun j => Z.[0%nat, j, 0%nat]).
Proof.
  destruct (data2_ready lstsq_ref 1 0 DUnbounded lstsq_ref_contract lstsq_ref_total) as (v & HT).
  exists lstsq_ref, solve_ref, (dom2 DUnbounded), X38, (data2 1 0), v.
  do 2 (split; [first [exact lstsq_ref_contract|exact solve_ref_sound]|]). split; [exact frame2|]. do 2 (split; [reflexivity|]). split; [exact HT|].
  intros G U L w y.
  destruct (data2_trained lstsq_ref 1 0 DUnbounded v lstsq_ref_contract HT) as (Sb & SA & SQ & VQ & VC).
  set (Y := mk2 1 1 (fun _ _ => y)).
  assert (NS : nonsingular (2 - 1) (mv_zAz v)).
  { intros x Hx i Hi. specialize (Hx 0%nat ltac:(lia)). cbn in Hx. rewrite VQ in Hx. replace i with 0%nat by lia. lra. }
  destruct (umvm_returns solve_ref (dom2 DUnbounded) 2 1 I2 I21 I22 v Y 1 w solve_ref_contract frame2 eq_refl Sb SA SQ NS) as (Z & EZ).
  exists Z. split; [exact EZ|].
  destruct (umvm_spec solve_ref (dom2 DUnbounded) 2 1 I2 I21 I22 v Y 1 Z w w solve_ref_sound frame2 eq_refl Sb SA SQ EZ) as (_ & _ & V).
  specialize (V 0%nat 0%nat ltac:(lia) ltac:(lia)). cbn [sumf Nat.sub] in V. rewrite VQ in V. pose proof (VC (Y.[0%nat, 0%nat])) as VC'.
  assert (EV : Z.[0%nat, 0%nat, 0%nat] = 100) by lra. clear V VC'.
  intros pr FT q.
  assert (Q : forall z, q z = z 0%nat + 1 / 200 * (z 0%nat * z 0%nat)) by (intros z; unfold q; rewrite (data2_model lstsq_ref 1 0 pr _ _ lstsq_ref_contract FT); lra).
  split.
  - intros D. assert (D2 : derivable_pt_lim (fun t => q (fun j => Z.[0%nat, j, 0%nat] + if Nat.eqb j 0 then t else 0)) 0 2).
    { apply (derivable_pt_lim_ext (fun t => 150 + (2 * t + 1 / 200 * (t * t)))); [intros t; rewrite Q; cbn [Nat.eqb]; rewrite EV; lra|].
      assert (EG : 0 + (2 * 1 + 1 / 200 * (1 * 0 + 0 * 1)) = 2) by lra.
      match goal with |- derivable_pt_lim ?h ?x _ => refine (eq_ind _ (derivable_pt_lim h x) _ _ EG) end. clear EG.
      apply (derivable_pt_lim_plus (fun _ => 150) (fun t => 2 * t + 1 / 200 * (t * t))); [apply derivable_pt_lim_const|].
      apply (derivable_pt_lim_plus (fun t => 2 * t) (fun t => 1 / 200 * (t * t))).
      - apply (derivable_pt_lim_scal (fun t => t)). apply derivable_pt_lim_id.
      - apply (derivable_pt_lim_scal (fun t => t * t)). apply (derivable_pt_lim_mult (fun t => t) (fun t => t)); apply derivable_pt_lim_id. }
    pose proof (uniqueness_limite _ _ _ _ D D2). lra.
  - exists (fun _ => -100). rewrite !Q, EV. lra.
Qed.
Print Assumptions C49_refuted.

(** ** C50 *)

(** partial: the answers keep W1 y + W2 z in the cube, and among those z they
    minimise z |-> model(2 z), not the model: the quadratic program is solved
    without the factor 1/2 in front of the quadratic term.  Solver contract:
    gurobi_ok, and minimize answers problems with this quadratic objective by
    a global minimiser (its promise when the objective is convex). *)
Theorem C50_bounded_partial : forall (G : gen) (U L : Type) B lstsq d m n Wm W1 W2 X f M v Y NY (w : world G U L),
  lstsq_contract lstsq -> gurobi_ok (gurobi B) ->
  (forall P c, (forall x, mp_fun P (mk1 (m - n) x) = Ok (quad_obj c (mv_zAz v) (m - n) x)) -> minimize_ok_at (sp_minimize B) P (m - n)) ->
  frame (d_subs d) m n Wm W1 W2 -> (1 <= m)%nat -> shape X = [M; m] -> shape f = [M; 1%nat] -> shape Y = [NY; n] ->
  mvm_train lstsq d X f = Ok v ->
  let p := Nat.min (if Nat.ltb 2 (m - n) then n + 2 else n + 1) m in
  (forall N, N <> 1%Z -> bmvm_regularize B d v Y N w = (Err (Exc "MinVariableMap needs N=1."), w)) /\
  forall Z w', bmvm_regularize B d v Y 1 w = (Ok Z, w') ->
  w' = w /\ shape Z = [NY; (m - n)%nat; 1%nat] /\ exists pr, fitted lstsq X f Wm M m p pr /\
  forall i, (i < NY)%nat -> let y := fun j => Y.[i, j] in let z := fun j => Z.[i, j, 0%nat] in
    in_cube m (xpt W1 W2 n (m - n) y z) /\
    forall z', in_cube m (xpt W1 W2 n (m - n) y z') ->
      min_model pr p m n Wm W1 W2 y (fun l => 2 * z l) <= min_model pr p m n Wm W1 W2 y (fun l => 2 * z' l).
Proof.
  intros G U L B lstsq d m n Wm W1 W2 X f M v Y NY w HL HG HM F Hm SX Sf SY HT p. split.
  { intros N HN. unfold bmvm_regularize. apply Z.eqb_neq in HN. rewrite HN. reflexivity. }
  intros Z w' HR.
  destruct (mvm_train_spec lstsq d m n Wm W1 W2 X f M v HL F Hm SX Sf HT) as (pr & FT & Sb & SA & SQ & QS & MV). fold (mvm_p m n) in p. fold p in FT, MV.
  destruct (bmvm_spec B d m n Wm W1 W2 v Y NY Z w w' (fun c A b z => solves (m - n) (doc_ineq A b (2 * m) (m - n)) (quad_obj c (mv_zAz v) (m - n)) z) F SY Sb SA) as (-> & SZ & VZ); [|exact HR|].
  { intros c A b z w1 w1' Sc SAi Sbi E.
    exact (proj2 (C51_quadratic_programs_solved B "GUROBI" (2 * m) (m - n) c (mv_zAz v) A b (mk2 (m - n) 1 (fun _ _ => 0)) (mk2 (m - n) 1 (fun _ _ => 0)) w1 w1' z
      (fun P => HM P c) HG Sc SQ SAi Sbi eq_refl eq_refl) E). }
  split; [reflexivity|]. split; [exact SZ|]. exists pr. split; [exact FT|]. intros i Hi y z.
  destruct (VZ i Hi) as (c & A & b & z0 & Sc & SAi & Sbi & Ez & (Sz & Fz & Oz) & Vc & Hf).
  assert (EE : z = (fun j => z0.[j, 0%nat])) by (apply FunctionalExtensionality.functional_extensionality; intros j; apply Ez).
  rewrite EE. split; [apply Hf; exact Fz|]. intros z' Hz'. apply Hf in Hz'. specialize (Oz z' Hz'). clear - MV Oz Vc.
  assert (E : forall u, min_model pr p m n Wm W1 W2 y (fun l => 2 * u l) = min_model pr p m n Wm W1 W2 y (fun _ => 0) + 2 * quad_obj c (mv_zAz v) (m - n) u).
  { intros u. rewrite MV. unfold quad_obj. rewrite Rmult_plus_distr_l, <- Rplus_assoc. f_equal.
    - f_equal. rewrite <- sumf_scal_l. apply sumf_ext. intros l Hl. rewrite Vc by exact Hl. unfold y. ring.
    - rewrite <- !sumf_scal_l. apply sumf_ext. intros a Ha. rewrite <- !sumf_scal_l. apply sumf_ext. intros; field. }
  rewrite (E z'), (E (fun j => z0.[j, 0%nat])). lra.
Qed.
Print Assumptions C50_bounded_partial.

(** a back end whose minimize answers with one fixed point, when that point is
    a solution, and reports failure otherwise *)
Definition is_answer (x : R) (P : mprob) : Prop := mp_feas P 1 (fun _ => x) /\
  forall y a b, mp_feas P 1 y -> mp_fun P (mk1 1 (fun _ => x)) = Ok a -> mp_fun P (mk1 1 y) = Ok b -> a <= b.
Definition point_min (x : R) (P : mprob) : res mres :=
  Ok (MR (if ClassicalDedekindReals.sig_not_dec (is_answer x P) then true else false) (XArr (mk1 1 (fun _ => x)))
    (match mp_fun P (mk1 1 (fun _ => x)) with Ok v => v | Err _ => 0 end)).
Definition point_backend (x : R) : backend := Backend false (linprog backend_ref) (point_min x) (gurobi backend_ref).
Lemma point_min_ok : forall x P, minimize_ok_at (point_min x) P 1.
Proof.
  intros x P r E S. unfold point_min in E. injection E as <-. cbn [mr_success mr_x] in *.
  destruct (ClassicalDedekindReals.sig_not_dec (is_answer x P)) as [H|H]; [|discriminate]. apply NNPP in H. destruct H as [H1 H2].
  split; [reflexivity|]. cbn [xpoint]. split; [exact H1|exact H2].
Qed.

Definition z50 : R := 100 / 402.
Lemma cube2 : forall y x, -1 <= y <= 1 -> in_cube 2 (xpt I21 I22 1 1 (fun j => (mk2 1 1 (fun _ _ => y)).[0%nat, j]) x) <-> -1 <= x 0%nat <= 1.
Proof.
  intros y x Hy. unfold in_cube, xpt, I21, I22, mat_of. split.
  - intros H. specialize (H 1%nat ltac:(lia)). cbn in H. lra.
  - intros H i Hi. destruct i as [|[|i]]; try lia; cbn; lra.
Qed.
Lemma point_run : forall (G : gen) (U L : Type) lstsq v (w : world G U L) y, lstsq_contract lstsq -> mvm_train lstsq (dom2 DBounded) X38 (data2 (-1) 1) = Ok v -> -1 <= y <= 1 ->
  exists Z, bmvm_regularize (point_backend z50) (dom2 DBounded) v (mk2 1 1 (fun _ _ => y)) 1 w = (Ok Z, w).
Proof.
  intros G U L lstsq v w y HL HT Hy. set (z0 := z50).
  destruct (data2_trained lstsq (-1) 1 DBounded v HL HT) as (Sb & SA & SQ & VQ & VC).
  set (Y := mk2 1 1 (fun _ _ => y)).
  assert (IC : forall x, in_cube 2 (xpt I21 I22 1 1 (fun j => Y.[0%nat, j]) x) <-> -1 <= x 0%nat <= 1) by (intros x; exact (cube2 y x Hy)).
  assert (QP : forall c A b, shape c = [1%nat; 1%nat] -> shape A = [4%nat; 1%nat] -> shape b = [4%nat; 1%nat] -> c.[0%nat, 0%nat] = -1 ->
    (forall x, doc_ineq A b 4 1 x <-> in_cube 2 (xpt I21 I22 1 1 (fun j => Y.[0%nat, j]) x)) ->
    exists z, quadratic_program_ineq (point_backend z0) (qp_init (point_backend z0) "GUROBI") c (mv_zAz v) A b w = (Ok z, w) /\ z.[0%nat, 0%nat] = z0).
  { intros c A b Sc SAi Sbi Vc HF.
    destruct (C51_quadratic_program_ineq_posed (G := G) (U := U) (L := L) (point_backend z0) 4 1 c (mv_zAz v) A b Sc SQ SAi Sbi) as [(P & F3 & O3 & _ & _ & _ & R3) _].
    change (qp_init (point_backend z0) "GUROBI") with "SCIPY"%string. rewrite R3. unfold mp_outcome. change (sp_minimize (point_backend z0) P) with (point_min z0 P). unfold point_min. cbn [mr_success mr_x as_array].
    assert (OB : forall x, quad_obj c (mv_zAz v) 1 x = - x 0%nat + 201 / 100 * (x 0%nat * x 0%nat)) by (intros x; unfold quad_obj; cbn [sumf]; rewrite Vc, VQ; lra).
    destruct (ClassicalDedekindReals.sig_not_dec (is_answer z0 P)) as [N|N].
    - destruct (flat_col (mk1 1 (fun _ => z0)) 1 eq_refl) as (z & E & Sz & Vz). exists z. rewrite E. split; [reflexivity|]. rewrite Vz by lia. now rewrite at_mk1.
    - exfalso. apply N. split.
      + apply F3, HF, IC. unfold z0, z50. lra.
      + intros x a a' Hx Ea Eb. rewrite O3 in Ea, Eb. injection Ea as <-. injection Eb as <-. rewrite !OB. unfold z0, z50.
        pose proof (Rle_0_sqr (x 0%nat - 100 / 402)) as SQ0. unfold Rsqr in SQ0. lra. }
  destruct (bmvm_returns (point_backend z0) (dom2 DBounded) 2 1 I2 I21 I22 v Y 1 w frame2 eq_refl Sb SA) as (Z & EZ).
  { intros i c A b Hi Sc SAi Sbi Vc HF. replace i with 0%nat in * by lia. specialize (Vc 0%nat ltac:(lia)). cbn [sumf] in Vc.
    destruct (QP c A b Sc SAi Sbi) as (z & E & _); [pose proof (VC (Y.[0%nat, 0%nat])); lra|exact HF|]. now exists z. }
  now exists Z.
Qed.

(** C50 as stated is false: with the data z^2 - z the model is -z + 1.005 z^2
    (plus a constant), least over the box at 1/2.01; the map returns 1/4.02 *)
Theorem C50_refuted : exists B lstsq d X f v, lstsq_contract lstsq /\ gurobi_ok (gurobi B) /\ (forall P, minimize_ok_at (sp_minimize B) P 1) /\
  frame (d_subs d) 2 1 I2 I21 I22 /\ shape X = [6%nat; 2%nat] /\ shape f = [6%nat; 1%nat] /\ mvm_train lstsq d X f = Ok v /\
  forall (G : gen) (U L : Type) (w : world G U L) y, -1 <= y <= 1 -> exists Z, bmvm_regularize B d v (mk2 1 1 (fun _ _ => y)) 1 w = (Ok Z, w) /\
  forall pr, fitted lstsq X f I2 6 2 2 pr -> exists z, in_cube 2 (xpt I21 I22 1 1 (fun _ => y) z) /\
    let q := min_model pr 2 2 1 I2 I21 I22 (fun _ => y) in q z < q (fun j => Z.[0%nat, j, 0%nat]).
Proof.
  destruct (data2_ready lstsq_ref (-1) 1 DBounded lstsq_ref_contract lstsq_ref_total) as (v & HT).
  assert (HG : gurobi_ok (gurobi backend_ref)) by (intros P l H; discriminate).
  set (z0 := z50).
  exists (point_backend z0), lstsq_ref, (dom2 DBounded), X38, (data2 (-1) 1), v.
  split; [exact lstsq_ref_contract|]. split; [exact HG|]. split; [exact (point_min_ok z0)|]. split; [exact frame2|]. do 2 (split; [reflexivity|]). split; [exact HT|].
  intros G U L w y Hy.
  destruct (data2_trained lstsq_ref (-1) 1 DBounded v lstsq_ref_contract HT) as (Sb & SA & SQ & VQ & VC).
  set (Y := mk2 1 1 (fun _ _ => y)).
  assert (IC : forall x, in_cube 2 (xpt I21 I22 1 1 (fun j => Y.[0%nat, j]) x) <-> -1 <= x 0%nat <= 1) by (intros x; exact (cube2 y x Hy)).
  destruct (point_run G U L lstsq_ref v w y lstsq_ref_contract HT Hy) as (Z & EZ).
  exists Z. split; [exact EZ|].
  destruct (bmvm_spec (point_backend z0) (dom2 DBounded) 2 1 I2 I21 I22 v Y 1 Z w w (fun c A b z => c.[0%nat, 0%nat] = -1 -> (forall x, doc_ineq A b 4 1 x <-> in_cube 2 (xpt I21 I22 1 1 (fun j => Y.[0%nat, j]) x)) -> z.[0%nat, 0%nat] = z0) frame2 eq_refl Sb SA) as (_ & _ & V); [|exact EZ|].
  { intros c A b z w1 w1' Sc SAi Sbi E.
    destruct (proj2 (C51_quadratic_programs_solved (point_backend z0) "GUROBI" (2 * 2) (2 - 1) c (mv_zAz v) A b (mk2 1 1 (fun _ _ => 0)) (mk2 1 1 (fun _ _ => 0)) w1 w1' z
      (fun P _ => point_min_ok z0 P) HG Sc SQ SAi Sbi eq_refl eq_refl) E) as ((_ & F & O) & ->). split; [|reflexivity].
    intros Vc HF.
    assert (OB : forall x, quad_obj c (mv_zAz v) 1 x = - x 0%nat + 201 / 100 * (x 0%nat * x 0%nat)) by (intros x; unfold quad_obj; cbn [sumf]; rewrite Vc, VQ; lra).
    specialize (O (fun _ => z0) ltac:(apply HF, IC; unfold z0, z50; lra)). change (2 - 1)%nat with 1%nat in O. rewrite !OB in O. set (zz := z.[0%nat, 0%nat]) in *.
    assert (K : (zz - z0) * (zz - z0) <= 0) by (unfold z0, z50 in *; lra).
    pose proof (Rle_0_sqr (zz - z0)) as K2. unfold Rsqr in K2. assert (K3 : (zz - z0) * (zz - z0) = 0) by lra. apply Rmult_integral in K3. lra. }
  destruct (V 0%nat ltac:(lia)) as (c & A & b & z & Sc & SAi & Sbi & Ez & KK & Vc & HF). specialize (Vc 0%nat ltac:(lia)). cbn [sumf] in Vc.
  specialize (KK ltac:(pose proof (VC (Y.[0%nat, 0%nat])); lra) HF). rewrite <- (Ez 0%nat) in KK.
  intros pr FT. exists (fun _ => 100 / 201). split; [apply (IC (fun _ => 100 / 201)); lra|]. cbv zeta.
  rewrite !(data2_model lstsq_ref (-1) 1 pr _ _ lstsq_ref_contract FT), KK. unfold z0, z50. lra.
Qed.
Print Assumptions C50_refuted.

(** the hypotheses of C50_bounded_partial, with a run that returns *)
Example C50_case : exists v, mvm_train lstsq_ref (dom2 DBounded) X38 (data2 (-1) 1) = Ok v /\ shape (mv_zAz v) = [1%nat; 1%nat] /\
  gurobi_ok (gurobi (point_backend z50)) /\
  (forall P c, (forall x, mp_fun P (mk1 1 x) = Ok (quad_obj c (mv_zAz v) 1 x)) -> minimize_ok_at (sp_minimize (point_backend z50)) P 1).
Proof.
  destruct (data2_ready lstsq_ref (-1) 1 DBounded lstsq_ref_contract lstsq_ref_total) as (v & HT). exists v. split; [exact HT|].
  destruct (data2_trained lstsq_ref (-1) 1 DBounded v lstsq_ref_contract HT) as (_ & _ & SQ & _). split; [exact SQ|].
  split; [intros P l H; discriminate|]. intros P c _. apply point_min_ok.
Qed.
