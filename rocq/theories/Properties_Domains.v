(** Final theorems for domains.py: C21, C23 *)
From Coq Require Import String Reals Lra Lia List Arith ZArith Bool.
From Verif Require Import Prelude Py NumArr LinAlg Toy M_Misc M_RespSurf M_Gradients M_Subspaces M_QP M_Domains P_QP P_Domains P_DomSample Properties_QP.
Import ListNotations.
Open Scope R_scope.

(** A computed and partitioned Subspaces object: orthogonal eigenvector matrix
    Wm, W1 its first n columns, W2 the others (what C10 and C18 establish). *)
Record frame (s : subspaces) (m n : nat) (Wm W1 W2 : nd R) : Prop := Frame {
  fr_W : s_eigenvecs s = Some Wm; fr_1 : s_W1 s = Some W1; fr_2 : s_W2 s = Some W2;
  fr_le : (n <= m)%nat;
  fr_sW : shape Wm = [m; m]; fr_s1 : shape W1 = [m; n]; fr_s2 : shape W2 = [m; (m - n)%nat];
  fr_e1 : forall i j, (i < m)%nat -> (j < n)%nat -> W1.[i, j] = Wm.[i, j];
  fr_e2 : forall i j, (i < m)%nat -> (j < m - n)%nat -> W2.[i, j] = Wm.[i, (n + j)%nat];
  fr_o : forall a b, (a < m)%nat -> (b < m)%nat -> sumf m (fun i => Wm.[i, a] * Wm.[i, b]) = if Nat.eqb a b then 1 else 0
}.

Lemma frame_ortho : forall s m n Wm W1 W2, frame s m n Wm W1 W2 -> orthonormal m m (fun i j => Wm.[i, j]).
Proof. intros s m n Wm W1 W2 F a b Ha Hb. apply (fr_o _ _ _ _ _ _ F a b Ha Hb). Qed.
(** a sum over all columns of Wm splits into W1 and W2 *)
Lemma frame_sum : forall s m n Wm W1 W2 i (c : nat -> R), frame s m n Wm W1 W2 -> (i < m)%nat ->
  sumf m (fun a => Wm.[i, a] * c a) = sumf n (fun j => W1.[i, j] * c j) + sumf (m - n) (fun j => W2.[i, j] * c (n + j)%nat).
Proof.
  intros s m n Wm W1 W2 i c F Hi. replace m with (n + (m - n))%nat at 1 by (assert (H := fr_le _ _ _ _ _ _ F); lia). rewrite sumf_split. f_equal.
  - apply sumf_ext. intros j Hj. now rewrite (fr_e1 _ _ _ _ _ _ F).
  - apply sumf_ext. intros j Hj. now rewrite (fr_e2 _ _ _ _ _ _ F).
Qed.

Theorem C21_forward : forall a m n Wm W1 W2 X M, frame (d_subs (av_domain a)) m n Wm W1 W2 -> shape X = [M; m] ->
  exists Y Z, av_forward a X = Ok (Y, Z) /\ shape Y = [M; n] /\ shape Z = [M; (m - n)%nat] /\
    (* Y = X W1, Z = X W2 *)
    (forall r j, (r < M)%nat -> (j < n)%nat -> Y.[r, j] = sumf m (fun i => X.[r, i] * W1.[i, j])) /\
    (forall r j, (r < M)%nat -> (j < m - n)%nat -> Z.[r, j] = sumf m (fun i => X.[r, i] * W2.[i, j])) /\
    (* X = Y W1^T + Z W2^T *)
    (forall r i, (r < M)%nat -> (i < m)%nat ->
       X.[r, i] = sumf n (fun j => Y.[r, j] * W1.[i, j]) + sumf (m - n) (fun j => Z.[r, j] * W2.[i, j])) /\
    (* |X|^2 = |Y|^2 + |Z|^2, row by row *)
    (forall r, (r < M)%nat -> sumf m (fun i => X.[r, i] * X.[r, i]) =
       sumf n (fun j => Y.[r, j] * Y.[r, j]) + sumf (m - n) (fun j => Z.[r, j] * Z.[r, j])).
Proof.
  intros a m n Wm W1 W2 X M F HX. assert (O := frame_ortho _ _ _ _ _ _ F).
  unfold av_forward. rewrite (process_inputs_ok _ X M m HX). cbn [rbind].
  rewrite (fr_1 _ _ _ _ _ _ F), (fr_2 _ _ _ _ _ _ F). cbn [need rbind].
  rewrite (npdot2 X W1 M m n HX (fr_s1 _ _ _ _ _ _ F)), (npdot2 X W2 M m (m - n) HX (fr_s2 _ _ _ _ _ _ F)). cbn [rbind].
  do 2 eexists. split; [reflexivity|]. split; [reflexivity|]. split; [reflexivity|]. split; [reflexivity|]. split; [reflexivity|].
  assert (C1 : forall r j, (j < n)%nat -> sumf m (fun i => X.[r, i] * W1.[i, j]) = sumf m (fun i => Wm.[i, j] * X.[r, i])).
  { intros r j Hj. apply sumf_ext. intros i Hi. rewrite (fr_e1 _ _ _ _ _ _ F) by auto. ring. }
  assert (C2 : forall r j, (j < m - n)%nat -> sumf m (fun i => X.[r, i] * W2.[i, j]) = sumf m (fun i => Wm.[i, (n + j)%nat] * X.[r, i])).
  { intros r j Hj. apply sumf_ext. intros i Hi. rewrite (fr_e2 _ _ _ _ _ _ F) by auto. ring. }
  assert (E : m = (n + (m - n))%nat) by (assert (H := fr_le _ _ _ _ _ _ F); lia).
  split.
  - intros r i Hr Hi. rewrite (ortho_expand m _ O (fun i => X.[r, i]) i Hi). rewrite E at 1. rewrite sumf_split. f_equal.
    + apply sumf_ext. intros j Hj. rewrite at_mk2, C1, (fr_e1 _ _ _ _ _ _ F) by auto. reflexivity.
    + apply sumf_ext. intros j Hj. rewrite at_mk2, C2, (fr_e2 _ _ _ _ _ _ F) by auto. reflexivity.
  - intros r Hr. rewrite <- (ortho_parseval m _ O (fun i => X.[r, i])). rewrite E at 1. rewrite sumf_split. f_equal.
    + apply sumf_ext. intros j Hj. rewrite !at_mk2, C1 by auto. reflexivity.
    + apply sumf_ext. intros j Hj. rewrite !at_mk2, C2 by auto. reflexivity.
Qed.
Print Assumptions C21_forward.

(** what inverse makes of a choice Z of inactive variables *)
Definition inverse_of (a : avmap) (m n NY N : nat) (Y Z X ind : nd R) : Prop :=
  shape X = [(N * NY)%nat; m] /\ shape ind = [(N * NY)%nat; 1%nat] /\
  (* ind lists 0,...,0,1,...,1,... *)
  (forall i l, (i < NY)%nat -> (l < N)%nat -> ind.[(i * N + l)%nat, 0%nat] = INR i) /\
  (* forward of every returned point gives back the row of Y named by ind *)
  exists Y' Z', av_forward a X = Ok (Y', Z') /\
    (forall i l j, (i < NY)%nat -> (l < N)%nat -> (j < n)%nat -> Y'.[(i * N + l)%nat, j] = Y.[i, j]) /\
    (forall i l j, (i < NY)%nat -> (l < N)%nat -> (j < m - n)%nat -> Z'.[(i * N + l)%nat, j] = Z.[i, j, l]).

Lemma rotate_inverse : forall a m n NY N Wm W1 W2 Y Z, frame (d_subs (av_domain a)) m n Wm W1 W2 ->
  shape Y = [NY; n] -> shape Z = [NY; (m - n)%nat; N] ->
  exists X ind, rotate_x Y Z Wm = Ok (X, ind) /\ inverse_of a m n NY N Y Z X ind /\
    forall i l c, (i < NY)%nat -> (l < N)%nat -> (c < m)%nat ->
      X.[(i * N + l)%nat, c] = sumf n (fun j => W1.[c, j] * Y.[i, j]) + sumf (m - n) (fun j => W2.[c, j] * Z.[i, j, l]).
Proof.
  intros a m n NY N Wm W1 W2 Y Z F HY HZ. assert (O := frame_ortho _ _ _ _ _ _ F).
  assert (E : (n + (m - n) = m)%nat) by (assert (H := fr_le _ _ _ _ _ _ F); lia).
  destruct (rotate_x_ok Y Z Wm NY n (m - n) N HY HZ) as (X & ind & ER & SX & SI & VX & VI); [rewrite E; apply (fr_sW _ _ _ _ _ _ F)|].
  rewrite E in SX, VX. exists X, ind. split; auto.
  assert (VX' : forall i l c, (i < NY)%nat -> (l < N)%nat -> (c < m)%nat ->
      X.[(i * N + l)%nat, c] = sumf m (fun b => Wm.[c, b] * (if Nat.ltb b n then Y.[i, b] else Z.[i, (b - n)%nat, l]))).
  { intros i l c Hi Hl Hc. rewrite VX by auto. symmetry. eapply eq_trans; [apply (f_equal (fun k => sumf k _)); symmetry; exact E|]. rewrite sumf_split. f_equal.
    - apply sumf_ext. intros j Hj. destruct (Nat.ltb_spec j n); [reflexivity|lia].
    - apply sumf_ext. intros j Hj. destruct (Nat.ltb_spec (n + j) n); [lia|]. replace (n + j - n)%nat with j by lia. reflexivity. }
  assert (CO : forall i l b, (i < NY)%nat -> (l < N)%nat -> (b < m)%nat ->
      sumf m (fun c => X.[(i * N + l)%nat, c] * Wm.[c, b]) = if Nat.ltb b n then Y.[i, b] else Z.[i, (b - n)%nat, l]).
  { intros i l b Hi Hl Hb. set (v := fun b => if Nat.ltb b n then Y.[i, b] else Z.[i, (b - n)%nat, l]).
    rewrite (sumf_ext m _ (fun c => sumf m (fun e => v e * (Wm.[c, e] * Wm.[c, b])))).
    2: { intros c Hc. rewrite VX' by auto. rewrite <- sumf_scal_r. apply sumf_ext. intros e He. unfold v. ring. }
    rewrite sumf_swap. rewrite (sumf_ext m _ (fun e => v e * kron_delta e b)).
    2: { intros e He. rewrite sumf_scal_l. f_equal. apply O; auto. }
    now rewrite sumf_kd_r. }
  split.
  - split; auto. split; auto. split; auto.
    destruct (C21_forward a m n Wm W1 W2 X (N * NY) F SX) as (Y' & Z' & EF & _ & _ & FY & FZ & _).
    exists Y', Z'. split; auto. split; intros i l j Hi Hl Hj.
    + rewrite FY by (auto; nia). rewrite (sumf_ext m _ (fun c => X.[(i * N + l)%nat, c] * Wm.[c, j])).
      * rewrite CO by (auto; lia). destruct (Nat.ltb_spec j n); [reflexivity|lia].
      * intros c Hc. now rewrite (fr_e1 _ _ _ _ _ _ F).
    + rewrite FZ by (auto; nia). rewrite (sumf_ext m _ (fun c => X.[(i * N + l)%nat, c] * Wm.[c, (n + j)%nat])).
      * rewrite CO by (auto; lia). destruct (Nat.ltb_spec (n + j) n); [lia|]. replace (n + j - n)%nat with j by lia. reflexivity.
      * intros c Hc. now rewrite (fr_e2 _ _ _ _ _ _ F).
  - intros i l c Hi Hl Hc. rewrite VX by auto. f_equal; apply sumf_ext; intros j Hj.
    + now rewrite (fr_e1 _ _ _ _ _ _ F).
    + now rewrite (fr_e2 _ _ _ _ _ _ F).
Qed.

(** whatever regularize_z the object has (also the minimising maps of
    optimizers.py): if it returns inactive variables Z, inverse returns points
    that forward takes to Y and Z *)
Theorem C21_inverse : forall (G : gen) (U L : Type) a m n Wm W1 W2 (reg : nd R -> Z -> M (world G U L) (nd R)) Y Z NY N (w w' : world G U L),
  frame (d_subs (av_domain a)) m n Wm W1 W2 -> shape Y = [NY; n] ->
  reg Y (Z.of_nat N) w = (Ok Z, w') -> shape Z = [NY; (m - n)%nat; N] ->
  exists X ind, av_inverse_with (av_domain a) reg Y (IsA (Z.of_nat N)) w = (Ok (X, ind), w') /\ inverse_of a m n NY N Y Z X ind.
Proof.
  intros G U L a m n Wm W1 W2 reg Y Z NY N w w' F HY HR HZ.
  destruct (rotate_inverse a m n NY N Wm W1 W2 Y Z F HY HZ) as (X & ind & ER & HI & _).
  exists X, ind. split; auto. unfold av_inverse_with, mbind, mlift. rewrite (process_inputs_ok _ Y NY n HY), HR, (fr_W _ _ _ _ _ _ F). cbn [need]. now rewrite ER.
Qed.
Print Assumptions C21_inverse.

(** drawing k numbers *)
Fixpoint normals {G : gen} (k : nat) (s : gst G) : list R * gst G :=
  match k with O => ([], s) | S k' => let (x, s1) := g_normal G s in let (l, s2) := normals k' s1 in (x :: l, s2) end.
Lemma repeat_normals : forall (G : gen) (U L : Type) k (w : world G U L),
  repeatM k draw_normal w = (Ok (fst (normals k (rng w))), set_rng w (snd (normals k (rng w)))).
Proof.
  intros G U L. induction k; intros w; simpl.
  - unfold mret. f_equal. destruct w; reflexivity.
  - unfold mbind, draw_normal at 1. destruct (g_normal G (rng w)) as [x s1] eqn:E. rewrite IHk. cbn [set_rng rng].
    destruct (normals k s1) as [l s2]. reflexivity.
Qed.

(** the unbounded map: every N >= 0 is served, with NY*(m-n)*N normal draws
    as the inactive variables, in order *)
Theorem C21_unbounded_inverse : forall (G : gen) (U L : Type) (B : backend) d m n Wm W1 W2 Y NY N (w : world G U L),
  let a := AVM MUnbounded d in
  frame (d_subs d) m n Wm W1 W2 -> shape Y = [NY; n] ->
  let dr := normals (NY * (m - n) * N) (rng w) in
  exists X ind, av_inverse B a Y (IsA (Z.of_nat N)) w = (Ok (X, ind), set_rng w (snd dr)) /\
    inverse_of a m n NY N Y (mk3 NY (m - n) N (fun i j l => nth ((i * (m - n) + j) * N + l) (fst dr) 0)) X ind.
Proof.
  intros G U L B d m n Wm W1 W2 Y NY N w a F HY dr.
  apply (C21_inverse G U L a m n Wm W1 W2 (regularize_z B a) Y _ NY N w (set_rng w (snd dr)) F HY); [|reflexivity].
  unfold regularize_z, a. cbn [av_kind av_domain]. unfold regularize_unbounded, mbind, mlift. rewrite (fr_1 _ _ _ _ _ _ F). cbn [need].
  unfold shape2. rewrite (fr_s1 _ _ _ _ _ _ F). rewrite (proj2 (Nat.leb_le n m) (fr_le _ _ _ _ _ _ F)). cbn [guard].
  unfold dimZ. destruct (Z.ltb_spec (Z.of_nat N) 0) as [H|H]; [lia|]. rewrite Nat2Z.id. unfold normal3, mbind.
  rewrite (nrows_shape2 _ Y _ _ HY), repeat_normals. reflexivity.
Qed.
Print Assumptions C21_unbounded_inverse.

(** what cannot be inverted: an N that is not an int, a negative N, an array
    that is not 2-d, a map of the base class *)
Theorem C21_inverse_raises : forall (G : gen) (U L : Type) (B : backend) a Y (w : world G U L),
  (rank Y <> 2%nat -> forall N, av_inverse B a Y N w = (Err ValueError, w)) /\
  (rank Y = 2%nat -> av_inverse B a Y NotA w = (Err TypeError, w)) /\
  (rank Y = 2%nat -> av_kind a = MBase -> forall N, av_inverse B a Y (IsA N) w = (Err NotImplementedError, w)) /\
  (rank Y = 2%nat -> forall m n Wm W1 W2 N, frame (d_subs (av_domain a)) m n Wm W1 W2 -> (N < 0)%Z -> av_kind a = MUnbounded ->
     av_inverse B a Y (IsA N) w = (Err ValueError, w)).
Proof.
  intros G U L B a Y w. unfold av_inverse, av_inverse_with.
  assert (K : rank Y = 2%nat -> exists r c, shape Y = [r; c]).
  { unfold rank. destruct (shape Y) as [|r [|c [|? ?]]]; try discriminate. eauto. }
  split; [|split; [|split]].
  - intros H N. unfold mbind, mlift, process_inputs. destruct (shape Y) as [|r [|c [|? ?]]] eqn:E; auto. exfalso. apply H. unfold rank. now rewrite E.
  - intros H. destruct (K H) as (r & c & E). unfold mbind, mlift. now rewrite (process_inputs_ok _ Y r c E).
  - intros H HB N. destruct (K H) as (r & c & E). unfold mbind, mlift. rewrite (process_inputs_ok _ Y r c E). unfold regularize_z. now rewrite HB.
  - intros H m n Wm W1 W2 N F HN HB. destruct (K H) as (r & c & E). unfold mbind, mlift. rewrite (process_inputs_ok _ Y r c E). unfold regularize_z. rewrite HB.
    unfold regularize_unbounded, mbind, mlift. rewrite (fr_1 _ _ _ _ _ _ F). cbn [need]. unfold shape2. rewrite (fr_s1 _ _ _ _ _ _ F).
    rewrite (proj2 (Nat.leb_le n m) (fr_le _ _ _ _ _ _ F)). cbn [guard]. unfold dimZ. destruct (Z.ltb_spec N 0); [reflexivity|lia].
Qed.
Print Assumptions C21_inverse_raises.

(** a rational orthogonal 3-by-3 matrix, first column active *)
Definition W3 : nd R := mk2 3 3 (fun i j => nth j (nth i [[1/3; 2/3; 2/3]; [2/3; 1/3; -(2/3)]; [2/3; -(2/3); 1/3]] []) 0).
Definition W31 : nd R := cols_slice W3 0 1.
Definition W32 : nd R := cols_slice W3 1 3.
Definition sub3 : subspaces := Subs None (Some W3) (Some W31) (Some W32) None None.
Lemma frame3 : frame sub3 3 1 W3 W31 W32.
Proof.
  split; try reflexivity; try lia.
  - intros a b Ha Hb. destruct a as [|[|[|a]]]; try lia; destruct b as [|[|[|b]]]; try lia; simpl; lra.
Qed.
Example C21_case : exists X ind w', av_inverse backend_ref (AVM MUnbounded (AVD DUnbounded sub3 3 1 None None None None)) (mk2 2 1 (fun i _ => INR i)) (IsA 2%Z)
    (toy_world tt : world toy_gen unit unit) = (Ok (X, ind), w') /\ shape X = [4%nat; 3%nat].
Proof.
  destruct (C21_unbounded_inverse toy_gen unit unit backend_ref (AVD DUnbounded sub3 3 1 None None None None) 3 1 W3 W31 W32 (mk2 2 1 (fun i _ => INR i)) 2 2 (toy_world tt) frame3 eq_refl)
    as (X & ind & E & SX & _). exists X, ind. eexists. split; [exact E|exact SX].
Qed.

(** ** C23 *)

Lemma sum_bound : forall m (w x : nat -> R), (forall i, (i < m)%nat -> -1 <= x i <= 1) ->
  - sumf m (fun i => Rabs (w i)) <= sumf m (fun i => w i * x i) <= sumf m (fun i => Rabs (w i)).
Proof.
  intros m w x H.
  assert (K : forall i, (i < m)%nat -> - Rabs (w i) <= w i * x i <= Rabs (w i)).
  { intros i Hi. specialize (H i Hi). unfold Rabs. destruct (Rcase_abs (w i)); nra. }
  rewrite <- sumf_opp. split; apply sumf_le; intros i Hi; apply K; auto.
Qed.

Theorem C23_interval_endpoints : forall W1 m, shape W1 = [m; 1%nat] ->
  exists Y X, interval_endpoints W1 = Ok (Y, X) /\ shape Y = [2%nat; 1%nat] /\ shape X = [2%nat; m] /\
    let yl := Y.[0%nat, 0%nat] in let yu := Y.[1%nat, 0%nat] in
    yl <= yu /\ yu = - yl /\ yu = sumf m (fun i => Rabs (W1.[i, 0%nat])) /\
    (* the points map to the endpoints *)
    (forall r, (r < 2)%nat -> sumf m (fun i => X.[r, i] * W1.[i, 0%nat]) = Y.[r, 0%nat]) /\
    (* entries in {-1,0,1}, corners of the cube when no weight is 0 *)
    (forall r i, (r < 2)%nat -> (i < m)%nat -> X.[r, i] = 1 \/ X.[r, i] = -1 \/ X.[r, i] = 0 /\ W1.[i, 0%nat] = 0) /\
    (* the interval is exactly the range of the active variable on the cube *)
    (forall y, yl <= y <= yu <-> exists x : nat -> R, (forall i, (i < m)%nat -> -1 <= x i <= 1) /\ sumf m (fun i => W1.[i, 0%nat] * x i) = y).
Proof.
  intros W1 m H. destruct (interval_endpoints_ok W1 m H) as (Y & X & E & SY & SX & Y0 & Y1 & X0 & X1).
  exists Y, X. split; auto. split; auto. split; auto. cbv zeta. rewrite Y0, Y1. set (q := sumf m (fun i => Rabs (W1.[i, 0%nat]))) in *.
  assert (Q0 : 0 <= q) by (apply sumf_nonneg; intros; apply Rabs_pos).
  assert (QS : sumf m (fun i => W1.[i, 0%nat] * np_sign (W1.[i, 0%nat])) = q) by (apply sumf_ext; intros; apply np_sign_abs).
  split; [lra|]. split; [ring|]. split; [reflexivity|]. split; [|split].
  - intros [|[|r]] Hr; [| |lia].
    + rewrite Y0, <- QS, <- sumf_opp. apply sumf_ext. intros i Hi. rewrite X0 by auto. ring.
    + rewrite Y1, <- QS. apply sumf_ext. intros i Hi. rewrite X1 by auto. ring.
  - intros [|[|r]] i Hr Hi; [| |lia].
    + rewrite X0 by auto. destruct (np_sign_cases (W1.[i, 0%nat])) as [->|[->|[-> ->]]]; [right; left|left|right; right; split]; lra.
    + rewrite X1 by auto. destruct (np_sign_cases (W1.[i, 0%nat])) as [->|[->|[-> ->]]]; auto.
  - intros y. split.
    + intros Hy. destruct (Req_EM_T q 0) as [Z|Z].
      * exists (fun _ => 0). split; [intros; lra|]. rewrite (sumf_ext m _ (fun _ => 0)) by (intros; ring). rewrite sumf_0. lra.
      * exists (fun i => y / q * np_sign (W1.[i, 0%nat])). split.
        -- intros i Hi. assert (- 1 <= y / q <= 1).
           { split; [apply Rmult_le_reg_r with q; [lra|]; unfold Rdiv; rewrite Rmult_assoc, Rinv_l by auto; lra|].
             apply Rmult_le_reg_r with q; [lra|]; unfold Rdiv; rewrite Rmult_assoc, Rinv_l by auto; lra. }
           destruct (np_sign_cases (W1.[i, 0%nat])) as [->|[->|[-> _]]]; lra.
        -- rewrite (sumf_ext m _ (fun i => y / q * (W1.[i, 0%nat] * np_sign (W1.[i, 0%nat])))) by (intros; ring). rewrite sumf_scal_l, QS. field. auto.
    + intros (x & Hx & <-). apply (sum_bound m (fun i => W1.[i, 0%nat]) x Hx).
Qed.
Print Assumptions C23_interval_endpoints.

(** more than one column: the comparison of arrays raises *)
Theorem C23_one_column_only : forall W1 m n, shape W1 = [m; n] -> n <> 1%nat -> exists e, interval_endpoints W1 = Err e.
Proof.
  intros W1 m n H Hn. unfold interval_endpoints, shape2. rewrite H. cbn [rbind].
  rewrite (npdot2 (tr W1) (amap np_sign W1) n m n); [|unfold tr; now rewrite (nrows_shape2 _ W1 _ _ H), (ncols_shape2 _ W1 _ _ H)|exact H].
  cbn [rbind]. unfold first2. cbn [shape mk2]. destruct n as [|n]; [eexists; reflexivity|]. cbn [rbind]. unfold size. cbn [shape mk1 prodn].
  destruct (Nat.eqb_spec (S n * 1) 1) as [E|E]; [lia|]. cbn [negb]. eexists; reflexivity.
Qed.
Print Assumptions C23_one_column_only.

(** w = (3, 0, -4): the range is [-7, 7] *)
Example C23_case : exists Y X, interval_endpoints (mat_of [[3]; [0]; [-4]]) = Ok (Y, X) /\ Y.[0%nat, 0%nat] = -7 /\ Y.[1%nat, 0%nat] = 7.
Proof.
  destruct (C23_interval_endpoints (mat_of [[3]; [0]; [-4]]) 3 eq_refl) as (Y & X & E & _ & _ & H). cbv zeta in H.
  destruct H as (_ & H1 & H2 & _). exists Y, X. split; auto.
  assert (Q : Y.[1%nat, 0%nat] = 7). { rewrite H2. simpl. rewrite Rabs_R0, (Rabs_left (-4)), (Rabs_right 3) by lra. ring. } lra.
Qed.

(** ** C28: the start of hit and run *)

(** the polytope { z : -1 <= W1 y + W2 z <= 1 } and balls inside it: [inpoly],
    [ball_in], [slack] (P_DomSample.v); s is W1 y *)
Definition shift (W1 y : nd R) (n : nat) : nat -> R := fun i => sumf n (fun j => W1.[i, j] * y.[j]).

Theorem C28_start_is_chebyshev_centre : forall (G : gen) (U L : Type) (B : backend) m n y W1 W2 (w w' : world G U L) z0,
  (n <= m)%nat -> shape W1 = [m; n] -> shape W2 = [m; (m - n)%nat] -> shape y = [n] ->
  linprog_ok (linprog B) -> gurobi_ok (gurobi B) ->
  (exists z, inpoly W2 m (m - n) (shift W1 y n) z) ->
  chebyshev_start B y W1 W2 w = (Ok z0, w') ->
  let k := (m - n)%nat in let s := shift W1 y n in let c := fun j => z0.[j, 0%nat] in
  w' = w /\ shape z0 = [k; 1%nat] /\ inpoly W2 m k s c /\
  exists r, 0 <= r /\ ball_in W2 m k s c r /\ (forall z rho, 0 <= rho -> ball_in W2 m k s z rho -> rho <= r) /\
    (* slack of constraint q at least r times the norm of its row *)
    forall q, (q < 2 * m)%nat -> r * sqrt (sumf k (fun j => W2.[if Nat.ltb q m then q else (q - m)%nat, j] * W2.[if Nat.ltb q m then q else (q - m)%nat, j])) <= slack W2 m k s c q.
Proof.
  intros G U L B m n y W1 W2 w w' z0 Hn H1 H2 Hy HL HG (z & Hz) H k s c.
  destruct (chebyshev_inv B m n y W1 W2 w w' z0 Hn H1 H2 Hy HL HG H) as (-> & Sz & r & FR & OR). fold k in Sz, FR, OR. fold c in FR. change (fun i => sumf n (fun j => W1.[i, j] * y.[j])) with s in FR, OR.
  split; auto. split; auto.
  assert (R0 : 0 <= r).
  { assert (Q := OR (fun j => if Nat.eqb j k then 0 else z j)). cbv beta in Q. rewrite Nat.eqb_refl in Q. apply Q. apply cheb_ball; [lra|].
    intros u [_ Hu] i Hi. assert (Z : forall j, (j < k)%nat -> u j = 0).
    { apply sumf_sq_eq0. assert (P := sumf_sq_nonneg k u). lra. }
    rewrite (sumf_ext k _ (fun j => W2.[i, j] * z j)) by (intros j Hj; rewrite Z by auto; ring). apply Hz. auto. }
  assert (BA := proj1 (cheb_ball W2 m k s c r R0) FR).
  assert (IP : inpoly W2 m k s c).
  { intros i Hi. assert (P := BA (fun _ => 0) ltac:(split; [auto|rewrite (sumf_ext k _ (fun _ => 0)) by (intros; ring); rewrite sumf_0; nra]) i Hi). cbv beta in P.
    rewrite (sumf_ext k _ (fun j => W2.[i, j] * c j)) in P by (intros; ring). exact P. }
  split; auto. exists r. split; auto. split; auto. split.
  - intros z' rho Hr Hb. apply (cheb_ball W2 m k s z' rho Hr) in Hb. specialize (OR _ Hb). cbv beta in OR. now rewrite Nat.eqb_refl in OR.
  - intros q Hq. specialize (FR q Hq). cbv beta in FR. rewrite Nat.eqb_refl in FR. unfold rownorm in FR. eapply Rle_trans; [exact FR|]. right. unfold slack.
    assert (Q : forall i, sumf k (fun j => W2.[i, j] * (if Nat.eqb j k then r else c j)) = sumf k (fun j => W2.[i, j] * c j)).
    { intros i. apply sumf_ext. intros j Hj. now rewrite (proj2 (Nat.eqb_neq j k)) by lia. }
    destruct (Nat.ltb q m); now rewrite Q.
Qed.
Print Assumptions C28_start_is_chebyshev_centre.

(** a linear-programming routine that reports success on every feasible
    program whose objective is bounded below *)
Definition linprog_total (lin : lp -> res (bool * nd R)) : Prop :=
  forall P n lo, lp_wf P n -> (exists x, lp_feas P n x) -> (forall x, lp_feas P n x -> lo <= lp_obj P n x) -> exists x, lin P = Ok (true, x).

(** and the centre is found whenever the polytope is not empty and there is an
    inactive direction *)
Theorem C28_start_found : forall (G : gen) (U L : Type) (B : backend) m n y W1 W2 (w : world G U L),
  (n <= m)%nat -> shape W1 = [m; n] -> shape W2 = [m; (m - n)%nat] -> shape y = [n] ->
  has_gurobi B = false -> linprog_ok (linprog B) -> linprog_total (linprog B) ->
  (exists z, inpoly W2 m (m - n) (shift W1 y n) z) -> (exists i j, (i < m)%nat /\ (j < m - n)%nat /\ W2.[i, j] <> 0) ->
  exists z0, chebyshev_start B y W1 W2 w = (Ok z0, w).
Proof.
  intros G U L B m n y W1 W2 w Hn H1 H2 Hy HG HL HT (z & Hz) (i & j & Hi & Hj & Hw).
  destruct (chebyshev_posed (G := G) (U := U) (L := L) B m n y W1 W2 Hn H1 H2 Hy) as (c & A & b & Sc & SA & Sb & OB & FE & EQ). set (k := (m - n)%nat) in *. rewrite EQ.
  assert (QI : qp_init B "GUROBI" = "SCIPY"%string). { apply (proj1 (proj2 (C51_solver_names B "GUROBI"))). now right. }
  rewrite QI. destruct (C51_linear_program_ineq_posed (G := G) (U := U) (L := L) B (2 * m) (k + 1) c A b Sc SA Sb) as [(P & PW & PF & PO & PR) _].
  change (fun i => sumf n (fun j => W1.[i, j] * y.[j])) with (shift W1 y n) in FE. set (s := shift W1 y n) in *.
  assert (N1 : 0 < rownorm W2 k i).
  { unfold rownorm. apply sqrt_lt_R0. apply (sumf_pos k _ j); auto; [intros; nra|]. assert (0 < W2.[i, j] * W2.[i, j]) by nra. auto. }
  destruct (HT P (k + 1)%nat (- / rownorm W2 k i)) as (x & Ex); auto.
  - exists (fun j => if Nat.eqb j k then 0 else z j). apply PF, FE. apply cheb_ball; [lra|].
    intros u [_ Hu] q Hq. assert (Z : forall j, (j < k)%nat -> u j = 0).
    { apply sumf_sq_eq0. assert (PP := sumf_sq_nonneg k u). lra. }
    rewrite (sumf_ext k _ (fun j => W2.[q, j] * z j)) by (intros l Hl; rewrite Z by auto; ring). apply Hz. auto.
  - intros x Hx. rewrite PO, OB. apply PF, FE in Hx. assert (A1 := Hx i ltac:(lia)). assert (A2 := Hx (m + i)%nat ltac:(lia)). unfold slack in A1, A2.
    destruct (Nat.ltb_spec i m); [|lia]. destruct (Nat.ltb_spec (m + i) m); [lia|]. replace (m + i - m)%nat with i in A2 by lia.
    assert (x k * rownorm W2 k i <= 1) by lra. apply Ropp_le_contravar. apply Rmult_le_reg_r with (rownorm W2 k i); auto. rewrite Rinv_l by lra. lra.
  - unfold mbind. rewrite PR. unfold lp_outcome. rewrite Ex. destruct (HL P (k + 1)%nat x PW Ex) as (Sx & _). destruct (flat_col x (k + 1)%nat Sx) as (zc & Ez & Sz & Vz). rewrite Ez.
    unfold mlift. rewrite (nrows_shape2 _ zc _ _ Sz). replace (k + 1 - 1)%nat with k by lia.
    assert (SR : shape (rows_slice zc 0 k) = [k; 1%nat]).
    { unfold rows_slice. cbn [shape mk2]. rewrite (nrows_shape2 _ zc _ _ Sz), (ncols_shape2 _ zc _ _ Sz). f_equal. lia. }
    exists (rows_slice zc 0 k). rewrite <- SR. now rewrite reshape_id.
Qed.
Print Assumptions C28_start_found.

(** y = 1/2 for the rational 3-by-3 matrix: the start exists and lies in the polytope *)
Example C28_case : let y := vec_of [1 / 2] in exists z0,
  chebyshev_start backend_ref y W31 W32 (toy_world tt : world toy_gen unit unit) = (Ok z0, toy_world tt) /\
  inpoly W32 3 2 (shift W31 y 1) (fun j => z0.[j, 0%nat]).
Proof.
  cbv zeta. assert (NE : exists z, inpoly W32 3 2 (shift W31 (vec_of [1 / 2]) 1) z).
  { exists (fun _ => 0). intros i Hi. unfold shift. destruct i as [|[|[|i]]]; try lia; simpl; lra. }
  assert (HG : gurobi_ok (gurobi backend_ref)) by (intros P l H; discriminate).
  destruct (C28_start_found toy_gen unit unit backend_ref 3 1 (vec_of [1 / 2]) W31 W32 (toy_world tt)) as (z0 & E); auto.
  - apply linprog_ref_ok.
  - exact linprog_ref_succeeds.
  - exists 0%nat, 0%nat. split; [lia|]. split; [lia|]. simpl. lra.
  - exists z0. split; auto. apply (C28_start_is_chebyshev_centre toy_gen unit unit backend_ref 3 1 (vec_of [1 / 2]) W31 W32 (toy_world tt) (toy_world tt) z0); auto. apply linprog_ref_ok.
Qed.

(** ** C22 *)

Definition in_cube (m : nat) (x : nat -> R) : Prop := forall c, (c < m)%nat -> -1 <= x c <= 1.
(** x maps to the active variables in row i of Y *)
Definition maps_to (W1 Y : nd R) (m n i : nat) (x : nat -> R) : Prop :=
  forall j, (j < n)%nat -> sumf m (fun c => x c * W1.[c, j]) = Y.[i, j].

Lemma mmap_inv : forall W A C (f : A -> M W C) l (w w' : W) ys, mmap f l w = (Ok ys, w') ->
  List.length ys = List.length l /\ forall i d1 d2, (i < List.length l)%nat -> exists w1 w2, f (nth i l d1) w1 = (Ok (nth i ys d2), w2).
Proof.
  intros W A C f. induction l as [|x l IH]; intros w w' ys H; cbn [mmap] in H.
  - apply mret_inv in H. destruct H as [-> _]. split; [reflexivity|]. simpl. intros; lia.
  - apply mbind_ok in H. destruct H as (y & w1 & E & H). apply mbind_ok in H. destruct H as (ys' & w2 & E2 & H). apply mret_inv in H. destruct H as [-> ->].
    destruct (IH _ _ _ E2) as [IL IK]. split; [simpl; lia|]. intros [|i] d1 d2 Hi; cbn [nth]; [eauto|]. apply IK. simpl in Hi. lia.
Qed.

Lemma frame_split : forall s m n Wm W1 W2 (x : nat -> R) c, frame s m n Wm W1 W2 -> (c < m)%nat ->
  x c = sumf n (fun j => W1.[c, j] * sumf m (fun a => x a * W1.[a, j])) + sumf (m - n) (fun j => W2.[c, j] * sumf m (fun a => x a * W2.[a, j])).
Proof.
  intros s m n Wm W1 W2 x c F Hc. rewrite (ortho_expand m _ (frame_ortho _ _ _ _ _ _ F) x c Hc).
  rewrite (sumf_ext m _ (fun a => Wm.[c, a] * sumf m (fun j => x j * Wm.[j, a]))).
  2: { intros a Ha. rewrite Rmult_comm. f_equal. apply sumf_ext. intros; ring. }
  rewrite (frame_sum _ _ _ _ _ _ c (fun a => sumf m (fun j => x j * Wm.[j, a])) F Hc). f_equal; apply sumf_ext; intros j Hj; f_equal; apply sumf_ext; intros a Ha.
  - now rewrite (fr_e1 _ _ _ _ _ _ F).
  - now rewrite (fr_e2 _ _ _ _ _ _ F).
Qed.
(** a point of the cube over y gives a point of the polytope *)
Lemma cube_poly : forall s m n Wm W1 W2 Y i x, frame s m n Wm W1 W2 -> (forall j, (j < n)%nat -> (row1 Y i).[j] = Y.[i, j]) -> in_cube m x -> maps_to W1 Y m n i x ->
  inpoly W2 m (m - n) (shift W1 (row1 Y i) n) (fun j => sumf m (fun a => x a * W2.[a, j])).
Proof.
  intros s m n Wm W1 W2 Y i x F HR HC HM c Hc. specialize (HC c Hc). rewrite (frame_split _ _ _ _ _ _ x c F Hc) in HC.
  unfold shift. rewrite (sumf_ext n _ (fun j => W1.[c, j] * sumf m (fun a => x a * W1.[a, j]))); [exact HC|].
  intros j Hj. rewrite HR by auto. now rewrite HM.
Qed.

(** What is returned, always: points over Y; for each row of Y either all N
    points lie in the cube (rejection), or (hit and run) the points are steps
    of a walk from a point x0 of the cube in which every step keeps the bounds
    that the previous point had met with more than sqrt_eps to spare.  Missing
    for the full claim: a bound met with less to spare can be broken. *)
Theorem C22_bounded_inverse_partial : forall (G : gen) (U L : Type) (B : backend) d m n Wm W1 W2 Y NY N (w w' : world G U L) X ind,
  frame (d_subs d) m n Wm W1 W2 -> shape Y = [NY; n] -> linprog_ok (linprog B) -> gurobi_ok (gurobi B) ->
  av_inverse B (AVM MBounded d) Y (IsA N) w = (Ok (X, ind), w') ->
  exists Nn, N = Z.of_nat Nn /\ shape X = [(Nn * NY)%nat; m] /\
    (exists Z, inverse_of (AVM MBounded d) m n NY Nn Y Z X ind) /\
    forall i, (i < NY)%nat -> let pt l := fun c => X.[(i * Nn + l)%nat, c] in
      (forall l, (l < Nn)%nat -> maps_to W1 Y m n i (pt l)) /\
      ((forall l, (l < Nn)%nat -> in_cube m (pt l)) \/
       exists x0, maps_to W1 Y m n i x0 /\ ((exists x, in_cube m x /\ maps_to W1 Y m n i x) -> in_cube m x0) /\
         forall l, (l < Nn)%nat -> let prev := match l with O => x0 | S l' => pt l' end in
           forall c, (c < m)%nat -> (-1 + sqrt_eps < prev c -> -1 <= pt l c) /\ (prev c < 1 - sqrt_eps -> pt l c <= 1)).
Proof.
  intros G U L B d m n Wm W1 W2 Y NY N w w' X ind F HY HL HG H.
  assert (H1 := fr_s1 _ _ _ _ _ _ F). assert (H2 := fr_s2 _ _ _ _ _ _ F). assert (Hn := fr_le _ _ _ _ _ _ F). set (k := (m - n)%nat) in *.
  unfold av_inverse, av_inverse_with in H. apply mbind_ok in H. destruct H as ([[Y0 NY0] n0] & w0 & E & H). apply mlift_inv in E. destruct E as [E ->].
  rewrite (process_inputs_ok _ Y NY n HY) in E. injection E as <- <- <-. cbn [av_domain] in H.
  apply mbind_ok in H. destruct H as (Z & w1 & EZ & H). unfold regularize_z in EZ. cbn [av_kind av_domain] in EZ.
  apply mbind_ok in H. destruct H as (Wm' & w2 & E & H). apply mlift_inv in E. destruct E as [E ->]. rewrite (fr_W _ _ _ _ _ _ F) in E. injection E as <-.
  apply mlift_inv in H. destruct H as [H ->].
  unfold regularize_bounded in EZ. apply mbind_ok in EZ. destruct EZ as (W1' & w3 & E & EZ). apply mlift_inv in E. destruct E as [E ->]. rewrite (fr_1 _ _ _ _ _ _ F) in E. injection E as <-.
  apply mbind_ok in EZ. destruct EZ as (W2' & w3 & E & EZ). apply mlift_inv in E. destruct E as [E ->]. rewrite (fr_2 _ _ _ _ _ _ F) in E. injection E as <-.
  apply mbind_ok in EZ. destruct EZ as ([m' n'] & w3 & E & EZ). apply mlift_inv in E. destruct E as [E ->]. unfold shape2 in E. rewrite H1 in E. injection E as <- <-.
  apply mbind_ok in EZ. destruct EZ as (Zl & w3 & EM & EZ). destruct (mmap_inv _ _ _ _ _ _ _ _ EM) as [ML MK]. rewrite seq_length, (nrows_shape2 _ Y _ _ HY) in ML, MK.
  destruct Zl as [|Zf Zt]; [discriminate|]. apply mret_inv in EZ. destruct EZ as [EZ ->]. set (Zl := Zf :: Zt) in *.
  (* what sample_z returns for row i *)
  assert (SMP : forall i, (i < NY)%nat -> exists Nn, N = Z.of_nat Nn /\ shape (nth i Zl Zf) = [Nn; k] /\
     ((forall l, (l < Nn)%nat -> inpoly W2 m k (shift W1 (row1 Y i) n) (fun j => (nth i Zl Zf).[l, j])) \/
      exists z0, ((exists z, inpoly W2 m k (shift W1 (row1 Y i) n) z) -> inpoly W2 m k (shift W1 (row1 Y i) n) z0) /\
        forall l, (l < Nn)%nat -> forall q, (q < 2 * m)%nat ->
          sqrt_eps < slack W2 m k (shift W1 (row1 Y i) n) (match l with O => z0 | S l' => fun j => (nth i Zl Zf).[l', j] end) q ->
          0 <= slack W2 m k (shift W1 (row1 Y i) n) (fun j => (nth i Zl Zf).[l, j]) q)).
  { intros i Hi. destruct (MK i 0%nat Zf Hi) as (u1 & u2 & E). rewrite seq_nth in E by auto. cbn [plus] in E. set (Zi := nth i Zl Zf) in *. clearbody Zi.
    assert (Hy : shape (row1 Y i) = [n]) by (unfold row1; cbn [shape mk1]; now rewrite (ncols_shape2 _ Y _ _ HY)). set (y := row1 Y i) in *.
    unfold sample_z in E. apply mbind_ok in E. destruct E as ([Z'|] & u3 & ER & E).
    - apply mret_inv in E. destruct E as [<- ->]. destruct (rejection_rows B m n N y W1 W2 u1 u3 Zi H1 H2 Hy ER) as (Nn & EN & SZ & K). exists Nn. split; auto.
    - clear ER. unfold hit_and_run_z in E. apply mbind_ok in E. destruct E as ([m' n'] & u4 & E1 & E). apply mlift_inv in E1. destruct E1 as [E1 ->]. unfold shape2 in E1. rewrite H1 in E1. injection E1 as <- <-. fold k in E.
      apply mbind_ok in E. destruct E as (z0 & u4 & EC & E). destruct (chebyshev_inv B m n y W1 W2 u3 u4 z0 Hn H1 H2 Hy HL HG EC) as (-> & Sz & _).
      apply mbind_ok in E. destruct E as (s & u4 & E1 & E). apply mlift_inv in E1. destruct E1 as [E1 ->]. destruct (shift_of_ok W1 y m n H1 Hy) as (s' & Es & Ss & Vs). rewrite Es in E1. apply Ok_eq in E1. subst s'.
      apply mbind_ok in E. destruct E as ([A b] & u4 & E1 & E). apply mlift_inv in E1. destruct E1 as [E1 ->]. destruct (polytope_pair W2 s m k H2 Ss) as (A' & b' & Ep & SA & Sb & Vp). rewrite Ep in E1. injection E1 as -> ->.
      apply mbind_ok in E. destruct E as (Nn & u4 & E1 & E). apply mlift_inv in E1. destruct E1 as [E1 ->]. unfold dimZ in E1. destruct (Z.ltb_spec N 0); [discriminate|]. apply Ok_eq in E1.
      apply mbind_ok in E. destruct E as (l & u4 & EW & E). apply mret_inv in E. destruct E as [-> _].
      destruct (hr_walk_keeps (2 * m) k A b SA Sb Nn z0 u3 u4 l Sz EW) as (LL & LS & LK). exists Nn. split; [lia|].
      split; [unfold of_rows; cbn [shape mk2]; now rewrite map_length, LL|]. right. exists (fun j => z0.[j, 0%nat]). split.
      + intros NE. apply (C28_start_is_chebyshev_centre G U L B m n y W1 W2 u3 u3 z0 Hn H1 H2 Hy HL HG NE EC).
      + assert (SS : forall z q, (q < 2 * m)%nat -> slack W2 m k (shift W1 y n) z q = sumf k (fun j => A.[q, j] * z j) - b.[q, 0%nat]).
        { intros z q Hq. rewrite Vp by auto. unfold slack, shift. destruct (Nat.ltb_spec q m); rewrite Vs by lia; reflexivity. }
        assert (RW : forall r z, (r < Nn)%nat -> forall q, sumf k (fun j => A.[q, j] * (of_rows k (map (fun z => mk1 k (fun j => z.[j, 0%nat])) l)).[r, j]) = sumf k (fun j => A.[q, j] * (nth r l z).[j, 0%nat])).
        { intros r z Hr q. apply sumf_ext. intros j Hj. f_equal. unfold of_rows. rewrite at_mk2. rewrite (nth_indep _ _ (mk1 k (fun j => z.[j, 0%nat]))) by (rewrite map_length; lia). rewrite (map_nth (fun z : nd R => mk1 k (fun j => z.[j, 0%nat])) l z r). reflexivity. }
        intros r Hr q Hq. rewrite !SS by auto. rewrite (RW r z0 Hr). specialize (LK r Hr). cbv zeta in LK.
        destruct r as [|r].
        * cbn [nth] in LK |- *. destruct LK as [->|LK]; [intros Q; assert (P := sqrt_eps_pos); lra|apply LK; auto].
        * cbv beta. rewrite (RW r z0 ltac:(lia)). cbn [nth] in LK. destruct LK as [->|LK]; [intros Q; assert (P := sqrt_eps_pos); lra|apply LK; auto]. }
  (* the common N *)
  assert (NY0 : (0 < NY)%nat) by (unfold Zl in ML; simpl in ML; lia).
  destruct (SMP 0%nat NY0) as (Nn & EN & S0 & _). exists Nn. split; auto.
  assert (SMP' : forall i, (i < NY)%nat -> shape (nth i Zl Zf) = [Nn; k]).
  { intros i Hi. destruct (SMP i Hi) as (N2 & E2 & S2 & _). replace Nn with N2 by lia. exact S2. }
  assert (SZ : shape Z = [NY; k; Nn]). { rewrite EZ. cbn [shape mk3]. rewrite ML. change Zf with (nth 0 Zl Zf). rewrite (nrows_shape2 _ _ _ _ S0), (ncols_shape2 _ _ _ _ S0). reflexivity. }
  destruct (rotate_inverse (AVM MBounded d) m n NY Nn Wm W1 W2 Y Z F HY SZ) as (X' & ind' & ER & IO & VX). fold k in VX.
  rewrite ER in H. injection H as -> ->. assert (IO' := IO). destruct IO' as (SX & _ & _ & Y' & Z' & EF & FY & _). split; auto. split; [exists Z; exact IO|]. intros i Hi pt.
  assert (Hy : forall j, (j < n)%nat -> (row1 Y i).[j] = Y.[i, j]) by reflexivity.
  assert (PV : forall l c, (l < Nn)%nat -> (c < m)%nat -> pt l c = shift W1 (row1 Y i) n c + sumf k (fun j => W2.[c, j] * (nth i Zl Zf).[l, j])).
  { intros l c Hl Hc. unfold pt. rewrite VX by auto. f_equal. apply sumf_ext. intros j Hj. f_equal. rewrite EZ. rewrite at_mk3. reflexivity. }
  split.
  - intros l Hl j Hj. specialize (FY i l j Hi Hl Hj). destruct (C21_forward (AVM MBounded d) m n Wm W1 W2 X (Nn * NY) F SX) as (Y2 & Z2 & E2 & _ & _ & V2 & _). rewrite E2 in EF. injection EF as <- <-.
    rewrite <- FY. rewrite V2 by (auto; nia). reflexivity.
  - destruct (SMP i Hi) as (N2 & E2 & _ & [K|(z0 & K0 & K)]); (assert (N2 = Nn) by lia; subst N2).
    + left. intros l Hl c Hc. rewrite PV by auto. apply (K l Hl c Hc).
    + right. exists (fun c => shift W1 (row1 Y i) n c + sumf k (fun j => W2.[c, j] * z0 j)). split; [|split].
      * intros j Hj. set (v := fun b => if Nat.ltb b n then Y.[i, b] else z0 (b - n)%nat).
        assert (XV : forall c, (c < m)%nat -> shift W1 (row1 Y i) n c + sumf k (fun j => W2.[c, j] * z0 j) = sumf m (fun b => Wm.[c, b] * v b)).
        { intros c Hc. rewrite (frame_sum _ _ _ _ _ _ c v F Hc). unfold shift, v. f_equal; apply sumf_ext; intros b Hb.
          - destruct (Nat.ltb_spec b n); [reflexivity|lia].
          - destruct (Nat.ltb_spec (n + b) n); [lia|]. now replace (n + b - n)%nat with b by lia. }
        rewrite (sumf_ext m _ (fun c => sumf m (fun e => v e * (Wm.[c, e] * Wm.[c, j])))).
        2: { intros c Hc. rewrite XV by auto. rewrite (fr_e1 _ _ _ _ _ _ F) by auto. rewrite <- sumf_scal_r. apply sumf_ext. intros; ring. }
        rewrite sumf_swap. rewrite (sumf_ext m _ (fun e => v e * kron_delta e j)).
        2: { intros e He. rewrite sumf_scal_l. f_equal. apply (frame_ortho _ _ _ _ _ _ F); auto. lia. }
        rewrite sumf_kd_r by lia. unfold v. destruct (Nat.ltb_spec j n); [reflexivity|lia].
      * intros (x & Cx & Mx) c Hc. apply K0; auto. exists (fun j => sumf m (fun a => x a * W2.[a, j])). apply (cube_poly _ m n Wm W1 W2 Y i x F Hy Cx Mx).
      * intros l Hl prev c Hc. rewrite PV by auto. specialize (K l Hl).
        assert (PR : prev c = shift W1 (row1 Y i) n c + sumf k (fun j => W2.[c, j] * (match l with O => z0 | S l' => fun j => (nth i Zl Zf).[l', j] end) j)).
        { unfold prev. destruct l as [|l]; [reflexivity|]. apply PV; auto. lia. }
        set (zp := match l with O => z0 | S l' => fun j => (nth i Zl Zf).[l', j] end) in *. clearbody zp.
        assert (K1 := K c ltac:(lia)). assert (K2 := K (m + c)%nat ltac:(lia)). unfold slack in K1, K2. destruct (Nat.ltb_spec c m); [|lia]. destruct (Nat.ltb_spec (m + c) m); [lia|].
        replace (m + c - m)%nat with c in K2 by lia. rewrite <- PR in K1, K2. split; intros Q; [specialize (K1 ltac:(lra))|specialize (K2 ltac:(lra))]; lra.
Qed.
Print Assumptions C22_bounded_inverse_partial.
