(** Final theorems for the samplers of domains.py: C22 (refutation), C27 *)
From Coq Require Import String Reals Lra Lia List Arith ZArith Bool.
From Verif Require Import Prelude Py NumArr LinAlg Toy M_Misc M_RespSurf M_Gradients M_Subspaces M_QP M_Domains P_QP P_Misc P_Domains P_DomSample P_DomWitness Properties_QP Properties_Domains.
Import ListNotations.
Open Scope R_scope.

(** ** C22: hit and run can leave the cube

    The constraints met with slack at most sqrt(2^-52) are left out of the
    step-length bounds, so near a corner of the domain a step can go far out. *)
Definition dl : R := / 10 ^ 9.
Definition gen22 : gen := flat_gen (/ 10 ^ 4) (9 / 10) ug.
Definition w22 : world gen22 unit unit := World (tt : gst gen22) tt [] 0.
Definition Y22 : nd R := mk2 1 1 (fun _ _ => 5 / 3 - dl).
Definition d22 : avdomain := AVD DBounded sub3 3 1 None None None None.
Lemma run22 : exists X ind w', av_inverse backend_ref (AVM MBounded d22) Y22 (IsA 1%Z) w22 = (Ok (X, ind), w') /\ shape X = [1%nat; 3%nat] /\ 1 < X.[0%nat, 0%nat].
Proof.
  assert (D0 : 0 < dl) by (unfold dl; apply Rinv_0_lt_compat, pow_lt; lra).
  destruct (wit_sample dl D0 (Rle_refl _) (Rle_refl _) w22) as (Z & w1 & E0 & SZ & Z0 & Z1).
  assert (E : sample_z (G := gen22) (U := unit) (L := unit) backend_ref (IsA 1%Z) (mk1 1 (fun _ => 5 / 3 - dl)) W31 W32 w22 = (Ok Z, w1)) by exact E0.
  assert (F := frame3). set (Z3 := mk3 1 2 1 (fun i j l => (nth i [Z] Z).[l, j])).
  assert (ER : regularize_z backend_ref (AVM MBounded d22) Y22 1 w22 = (Ok Z3, w1)).
  { unfold regularize_z. cbn [av_kind av_domain]. unfold regularize_bounded. unfold mbind at 1, mlift at 1. cbn [d_subs d22 sub3 s_W1 need]. unfold mbind at 1, mlift at 1. cbn [s_W2 need].
    unfold mbind at 1, mlift at 1. change (shape2 W31) with (Ok (3%nat, 1%nat)). cbv beta iota. change (seq 0 (nrows Y22)) with [0%nat]. unfold mbind at 1. cbn [mmap]. unfold mbind at 1.
    change (need (s_W2 sub3)) with (Ok W32). cbv beta iota. change (row1 Y22 0) with (mk1 1 (fun _ => 5 / 3 - dl)). rewrite E. unfold mbind, mret. unfold Z3. rewrite (nrows_shape2 _ Z _ _ SZ), (ncols_shape2 _ Z _ _ SZ). reflexivity. }
  destruct (rotate_inverse (AVM MBounded d22) 3 1 1 1 W3 W31 W32 Y22 Z3 F eq_refl eq_refl) as (X & ind & EX & (SX & _) & VX).
  exists X, ind, w1. split; [|split; [exact SX|]].
  - unfold av_inverse, av_inverse_with. unfold mbind at 1, mlift at 1. rewrite (process_inputs_ok _ Y22 1 1 eq_refl). unfold mbind at 1. rewrite ER. unfold mbind at 1, mlift. cbn [d_subs av_domain d22 sub3 s_eigenvecs need]. now rewrite EX.
  - assert (VX0 := VX 0%nat 0%nat 0%nat ltac:(lia) ltac:(lia) ltac:(lia)). change (0 * 1 + 0)%nat with 0%nat in VX0. rewrite VX0. cbn [sumf]. change (3 - 1)%nat with 2%nat. cbn [sumf]. unfold Z3. rewrite !at_mk3. cbn [nth].
    assert (DS := d_small dl (Rle_refl _)). change (W31.[0%nat, 0%nat]) with (1 / 3). change (Y22.[0%nat, 0%nat]) with (5 / 3 - dl).
    change (W32.[0%nat, 0%nat]) with (2 / 3). change (W32.[0%nat, 1%nat]) with (2 / 3). lra.
Qed.
Lemma pre22 : forall i, (i < 1)%nat -> exists x, in_cube 3 x /\ maps_to W31 Y22 3 1 i x.
Proof.
  intros i Hi. exists (fun c => match c with O => 1 - 3 * dl | _ => 1 end). assert (DS := d_small dl (Rle_refl _)). assert (D0 : 0 < dl) by (unfold dl; apply Rinv_0_lt_compat, pow_lt; lra). split.
  - intros c Hc. destruct c; lra.
  - intros j Hj. destruct j; [|lia]. destruct i; [|lia]. simpl. lra.
Qed.

Theorem C22_bounded_inverse_refuted : ~ forall (G : gen) (U L : Type) (B : backend) d m n Wm W1 W2 Y NY N (w w' : world G U L) X ind,
  frame (d_subs d) m n Wm W1 W2 -> shape Y = [NY; n] -> linprog_ok (linprog B) -> linprog_total (linprog B) -> gurobi_ok (gurobi B) ->
  (forall i, (i < NY)%nat -> exists x, in_cube m x /\ maps_to W1 Y m n i x) ->
  av_inverse B (AVM MBounded d) Y (IsA N) w = (Ok (X, ind), w') ->
  forall r, (r < nrows X)%nat -> in_cube m (fun c => X.[r, c]).
Proof.
  intros C. destruct run22 as (X & ind & w1 & E & SX & HX).
  assert (HG : gurobi_ok (gurobi backend_ref)) by (intros P l H; discriminate).
  assert (Q := C gen22 unit unit backend_ref d22 3%nat 1%nat W3 W31 W32 Y22 1%nat 1%Z w22 w1 X ind frame3 eq_refl linprog_ref_ok linprog_ref_succeeds HG pre22 E 0%nat).
  rewrite (nrows_shape2 _ X _ _ SX) in Q. specialize (Q ltac:(lia) 0%nat ltac:(lia)). cbv beta in Q. lra.
Qed.
Print Assumptions C22_bounded_inverse_refuted.
(** the same run meets the hypotheses of C22_bounded_inverse_partial: its point
    is over Y *)
Example C22_case : exists X ind w', av_inverse backend_ref (AVM MBounded d22) Y22 (IsA 1%Z) w22 = (Ok (X, ind), w') /\ maps_to W31 Y22 3 1 0 (fun c => X.[0%nat, c]).
Proof.
  destruct run22 as (X & ind & w1 & E & SX & HX). exists X, ind, w1. split; auto. assert (HG : gurobi_ok (gurobi backend_ref)) by (intros P l H; discriminate).
  destruct (C22_bounded_inverse_partial gen22 unit unit backend_ref d22 3 1 W3 W31 W32 Y22 1 1%Z w22 w1 X ind frame3 eq_refl linprog_ref_ok HG E) as (Nn & EN & _ & _ & K).
  assert (Nn = 1%nat) by lia. subst Nn. destruct (K 0%nat ltac:(lia)) as [K1 _]. apply (K1 0%nat). lia.
Qed.

(** ** C27: random_walk_z

    The walk itself visits points of the polytope only; they are the columns of
    a (m-n)-by-N array.  The array is then reshaped, not transposed: rows of the
    result are points of the walk when there is one inactive variable or one
    sample, and in general mix coordinates of different points. *)
Theorem C27_random_walk_partial : forall (G : gen) (U L : Type) (B : backend) sb m n Wm W1 W2 y N (w w' : world G U L) Z,
  frame sb m n Wm W1 W2 -> shape y = [n] -> linprog_ok (linprog B) -> gurobi_ok (gurobi B) ->
  random_walk_z B N y W1 W2 w = (Ok Z, w') ->
  let k := (m - n)%nat in let s := shift W1 y n in
  exists Nn (pts : nat -> nat -> R), N = Z.of_nat Nn /\ shape Z = [Nn; k] /\
    (forall l, (l < Nn)%nat -> inpoly W2 m k s (pts l)) /\
    (forall r j, (r < Nn)%nat -> (j < k)%nat -> Z.[r, j] = pts ((r * k + j) mod Nn) ((r * k + j) / Nn)%nat) /\
    (k = 1%nat \/ Nn = 1%nat -> forall r, (r < Nn)%nat -> inpoly W2 m k s (fun j => Z.[r, j])).
Proof.
  intros G U L B sb m n Wm W1 W2 y N w w' Z F Hy HL HG H k s.
  assert (H1 := fr_s1 _ _ _ _ _ _ F). assert (H2 := fr_s2 _ _ _ _ _ _ F). assert (Hn := fr_le _ _ _ _ _ _ F). fold k in H2.
  unfold random_walk_z in H. apply mbind_ok in H. destruct H as ([m' n'] & w1 & E & H). apply mlift_inv in E. destruct E as [E ->]. unfold shape2 in E. rewrite H1 in E. injection E as <- <-. fold k in H.
  apply mbind_ok in H. destruct H as (sv & w1 & E & H). apply mlift_inv in E. destruct E as [E ->]. destruct (shift_of_ok W1 y m n H1 Hy) as (s' & Es & Ss & Vs). rewrite Es in E. apply Ok_eq in E. subst s'.
  assert (IPE : forall z, inpoly W2 m k (fun i => sv.[i, 0%nat]) z <-> inpoly W2 m k s z).
  { intros z. split; intros K i Hi; specialize (K i Hi); cbv beta in *; [rewrite Vs in K by auto; exact K|rewrite Vs by auto; exact K]. }
  apply mbind_ok in H. destruct H as (z0 & w1 & EZ & H).
  (* the start is feasible *)
  assert (ST : shape z0 = [k; 1%nat] /\ inpoly W2 m k (fun i => sv.[i, 0%nat]) (fun j => z0.[j, 0%nat])).
  { destruct (all2 (mk2 m 1 (fun i _ => Rleb 0 (1 - sv.[i, 0%nat]))) && all2 (mk2 m 1 (fun i _ => Rleb (-1 - sv.[i, 0%nat]) 0)))%bool eqn:EQ.
    - apply mret_inv in EZ. destruct EZ as [-> ->]. split; [reflexivity|]. apply andb_true_iff in EQ. destruct EQ as [Q1 Q2].
      intros i Hi. assert (A1 := proj1 (all2_spec (mk2 m 1 (fun i _ => Rleb 0 (1 - sv.[i, 0%nat]))) m 1 eq_refl) Q1 i 0%nat Hi ltac:(lia)).
      assert (A2 := proj1 (all2_spec (mk2 m 1 (fun i _ => Rleb (-1 - sv.[i, 0%nat]) 0)) m 1 eq_refl) Q2 i 0%nat Hi ltac:(lia)). rewrite at_mk2 in A1, A2. apply Rleb_spec in A1. apply Rleb_spec in A2.
      rewrite (sumf_ext k _ (fun _ => 0)) by (intros; unfold zeros2; rewrite at_mk2; ring). rewrite sumf_0. lra.
    - apply mbind_ok in EZ. destruct EZ as (y' & w2 & E & EZ). apply mlift_inv in E. destruct E as [E ->]. destruct (flat_col y n Hy) as (y2 & Ey & Sy & Vy). rewrite Ey in E. apply Ok_eq in E. subst y2.
      apply mbind_ok in EZ. destruct EZ as (x0 & w2 & EL & EZ). apply mbind_ok in EZ. destruct EZ as (z & w3 & E & EZ). apply mlift_inv in E. destruct E as [E ->]. apply mlift_inv in EZ. destruct EZ as [EZ ->].
      assert (ST1 : shape (tr W1) = [n; m]) by (unfold tr; cbn [shape mk2]; now rewrite (nrows_shape2 _ W1 _ _ H1), (ncols_shape2 _ W1 _ _ H1)).
      assert (ST2 : shape (tr W2) = [k; m]) by (unfold tr; cbn [shape mk2]; now rewrite (nrows_shape2 _ W2 _ _ H2), (ncols_shape2 _ W2 _ _ H2)).
      destruct (proj1 (C51_linear_programs_solved (G := G) (U := U) (L := L) B "GUROBI" n m (zeros2 m 1) (tr W1) y' (mk2 m 1 (fun _ _ => -1)) (ones2 m 1) w w2 x0 HL HG eq_refl ST1 Sy eq_refl eq_refl) EL) as [(Sx & (Fx & Bx) & _) ->].
      rewrite (npdot2 (tr W2) x0 k m 1 ST2 Sx) in E. apply Ok_eq in E. subst z.
      change [k; 1%nat] with (shape (mk2 k 1 (fun i j => sumf m (fun l => (tr W2).[i, l] * x0.[l, j])))) in EZ. rewrite reshape_id in EZ. apply Ok_eq in EZ. subst z0. split; [reflexivity|].
      intros c Hc. specialize (Bx c Hc). rewrite at_mk2 in Bx. change ((ones2 m 1).[c, 0%nat]) with 1 in Bx. rewrite Vs by auto.
      rewrite (frame_split _ _ _ _ _ _ (fun c => x0.[c, 0%nat]) c F Hc) in Bx. fold k in Bx.
      rewrite (sumf_ext n _ (fun j => W1.[c, j] * sumf m (fun a => x0.[a, 0%nat] * W1.[a, j]))).
      2: { intros j Hj. f_equal. specialize (Fx j Hj). rewrite Vy in Fx by auto. rewrite <- Fx. apply sumf_ext. intros a Ha. change ((tr W1).[j, a]) with (W1.[a, j]). ring. }
      rewrite (sumf_ext k (fun j => W2.[c, j] * (mk2 k 1 _).[j, 0%nat]) (fun j => W2.[c, j] * sumf m (fun a => x0.[a, 0%nat] * W2.[a, j]))); [exact Bx|].
      intros j Hj. rewrite at_mk2. f_equal. apply sumf_ext. intros a Ha. change ((tr W2).[j, a]) with (W2.[a, j]). ring. }
  destruct ST as [Sz Pz].
  apply mbind_ok in H. destruct H as (Wz & w2 & _ & H). apply mbind_ok in H. destruct H as (ws & w3 & _ & H). set (sig := / 10 * Rmin _ _) in H.
  apply mbind_ok in H. destruct H as (z1 & w4 & EB & H).
  destruct (rw_burn_ok m k W2 sv sig (seq 0 (Z.to_nat (10 * N))) z0 w3 H2 Ss Sz Pz) as (z1' & w4' & EB' & S1 & P1). rewrite EB' in EB. injection EB as -> ->.
  apply mbind_ok in H. destruct H as (Nn & w5 & E & H). apply mlift_inv in E. destruct E as [E ->]. unfold dimZ in E. destruct (Z.ltb_spec N 0); [discriminate|]. apply Ok_eq in E.
  apply mbind_ok in H. destruct H as (l & w6 & EW & H). apply mlift_inv in H. destruct H as [H ->].
  destruct (rw_walk_ok m k W2 sv sig Nn z1 w4 H2 Ss S1 P1) as (l' & w6' & EW' & LL & LP). rewrite EW' in EW. injection EW as -> ->.
  set (mat := mk2 k Nn (fun i j => (nth j l z1).[i, 0%nat])) in H.
  destruct (reshape_ok R [Nn; k] mat) as (Z' & EZ' & SZ & VZ); [unfold size; cbn [shape mat mk2 prodn]; lia|]. rewrite EZ' in H. apply Ok_eq in H. subst Z'.
  set (pts := fun q j => (nth q l z1).[j, 0%nat]).
  assert (PP : forall q, (q < Nn)%nat -> inpoly W2 m k s (pts q)).
  { intros q Hq. apply IPE. apply (LP (nth q l z1)). apply nth_In. lia. }
  assert (VV : forall r j, (r < Nn)%nat -> (j < k)%nat -> Z.[r, j] = pts ((r * k + j) mod Nn) ((r * k + j) / Nn)%nat).
  { intros r j Hr Hj. rewrite VZ by (constructor; [lia|constructor; [lia|constructor]]). cbn [shape mat mk2]. unfold ravel, unravel, prodn. rewrite !Nat.mul_1_r, Nat.add_0_r, Nat.div_1_r.
    unfold mat. rewrite at_mk2. reflexivity. }
  exists Nn, pts. split; [lia|]. split; auto. split; auto. split; auto. intros HK r Hr i Hi. destruct HK as [K1|N1].
  - rewrite (sumf_ext k _ (fun j => W2.[i, j] * pts r j)); [apply PP; auto|]. intros j Hj. rewrite VV by auto. rewrite K1 in Hj |- *. assert (j = 0%nat) by lia. subst j.
    rewrite Nat.mul_1_r, Nat.add_0_r, Nat.mod_small, Nat.div_small by auto. reflexivity.
  - rewrite (sumf_ext k _ (fun j => W2.[i, j] * pts 0%nat j)); [apply PP; lia|]. intros j Hj. rewrite VV by auto. assert (r = 0%nat) by lia. subst r. rewrite N1. rewrite Nat.mod_1_r, Nat.div_1_r. reflexivity.
Qed.
Print Assumptions C27_random_walk_partial.

(** two alternating normal draws *)
Program Definition alt_gen (a b : R) : gen := {|
  gst := bool; g_seed := fun _ => true; g_normal := fun s => ((if s then a else b), negb s); g_unif := fun s => (0, s); g_randint := fun hi s => (0%nat, s) |}.
Next Obligation. lra. Qed.

Section WalkWitness.
  Let sig := / 10 * Rmin (sqrt (6 / 9)) (sqrt (66 / 9)).
  Notation GG := (alt_gen (9 / 10 / sig) (1 / 10 / sig)).
  Let w := World (true : gst GG) tt [] 0 : world GG unit unit.
  Let y := vec_of [1].

  Lemma sig_pos : 0 < sig.
  Proof. unfold sig. apply Rmult_lt_0_compat; [lra|]. apply Rmin_glb_lt; apply sqrt_lt_R0; lra. Qed.

  Lemma alt_step : forall sv z, shape sv = [3%nat; 1%nat] -> (forall i, (i < 3)%nat -> sv.[i, 0%nat] = shift W31 y 1 i) -> shape z = [2%nat; 1%nat] ->
    (z.[0%nat, 0%nat] = 0 -> z.[1%nat, 0%nat] = 0 ->
       exists z1, rw_step W32 sv sig z w = (Ok z1, w) /\ shape z1 = [2%nat; 1%nat] /\ z1.[0%nat, 0%nat] = 9 / 10 /\ z1.[1%nat, 0%nat] = 1 / 10) /\
    (z.[0%nat, 0%nat] = 9 / 10 -> z.[1%nat, 0%nat] = 1 / 10 -> rw_step W32 sv sig z w = (Ok z, w)).
  Proof.
    intros sv z Ss Vs Sz. assert (SP := sig_pos). unfold rw_step. rewrite (nrows_shape2 _ z _ _ Sz), (ncols_shape2 _ z _ _ Sz).
    assert (EN : exists d, normal2 2 1 w = (Ok d, w) /\ shape d = [2%nat; 1%nat] /\ d.[0%nat, 0%nat] = 9 / 10 / sig /\ d.[1%nat, 0%nat] = 1 / 10 / sig).
    { eexists. split; [reflexivity|]. split; [reflexivity|]. split; reflexivity. }
    destruct EN as (d & EN & Sd & V0 & V1). unfold mbind. rewrite EN. unfold mlift.
    destruct (bcast2_same _ _ _ Rplus z (amap (Rmult sig) d) 2 1 Sz Sd) as (zc & E & Sc & Vc). rewrite E.
    assert (C0 : zc.[0%nat, 0%nat] = z.[0%nat, 0%nat] + 9 / 10) by (rewrite Vc by lia; change ((amap (Rmult sig) d).[0%nat, 0%nat]) with (sig * d.[0%nat, 0%nat]); rewrite V0; field; lra).
    assert (C1 : zc.[1%nat, 0%nat] = z.[1%nat, 0%nat] + 1 / 10) by (rewrite Vc by lia; change ((amap (Rmult sig) d).[1%nat, 0%nat]) with (sig * d.[1%nat, 0%nat]); rewrite V1; field; lra).
    destruct (in_polytope_ok 3 2 W32 sv zc eq_refl Ss Sc) as (ok & EO & PO). rewrite EO. unfold mret.
    split; intros Z0 Z1; rewrite Z0 in C0; rewrite Z1 in C1.
    - exists zc. assert (ok = true).
      { apply PO. intros i Hi. rewrite Vs by auto. unfold shift. destruct i as [|[|[|i]]]; try lia; simpl; rewrite C0, C1; lra. }
      subst ok. split; auto. split; auto. split; lra.
    - assert (ok = false). { apply not_true_is_false. intros Q. apply PO in Q. specialize (Q 0%nat ltac:(lia)). cbv beta in Q. rewrite Vs in Q by lia. unfold shift in Q. simpl in Q. rewrite C0, C1 in Q. lra. }
      subst ok. reflexivity.
  Qed.

  Lemma alt_walk : exists Z, random_walk_z backend_ref 2 y W31 W32 w = (Ok Z, w) /\ shape Z = [2%nat; 2%nat] /\ Z.[0%nat, 0%nat] = 9 / 10 /\ Z.[0%nat, 1%nat] = 9 / 10.
  Proof.
    unfold random_walk_z. unfold mbind at 1, mlift at 1. change (shape2 W31) with (Ok (3%nat, 1%nat)). cbv beta iota zeta. change (3 - 1)%nat with 2%nat.
    destruct (shift_of_ok W31 y 3 1 eq_refl eq_refl) as (sv & Es & Ss & Vs0). assert (Vs : forall i, (i < 3)%nat -> sv.[i, 0%nat] = shift W31 y 1 i) by exact Vs0.
    unfold mbind at 1, mlift at 1. rewrite Es.
    assert (V0 : sv.[0%nat, 0%nat] = 1 / 3) by (rewrite Vs by lia; unfold shift; simpl; lra).
    assert (V1 : sv.[1%nat, 0%nat] = 2 / 3) by (rewrite Vs by lia; unfold shift; simpl; lra).
    assert (V2 : sv.[2%nat, 0%nat] = 2 / 3) by (rewrite Vs by lia; unfold shift; simpl; lra).
    assert (T1 : all2 (mk2 3 1 (fun i _ => Rleb 0 (1 - sv.[i, 0%nat]))) = true).
    { match goal with |- all2 ?X = _ => apply (all2_spec X 3 1 eq_refl) end. intros i j Hi Hj. rewrite at_mk2. apply Rleb_spec. destruct i as [|[|[|i]]]; try lia; lra. }
    assert (T2 : all2 (mk2 3 1 (fun i _ => Rleb (-1 - sv.[i, 0%nat]) 0)) = true).
    { match goal with |- all2 ?X = _ => apply (all2_spec X 3 1 eq_refl) end. intros i j Hi Hj. rewrite at_mk2. apply Rleb_spec. destruct i as [|[|[|i]]]; try lia; lra. }
    rewrite T1, T2. cbv beta iota. unfold mbind at 1, mret at 1. cbn [andb].
    unfold mbind at 1, mlift at 1. rewrite (npdot2 W32 (zeros2 2 1) 3 2 1 eq_refl eq_refl). unfold mbind at 1, mlift at 1. set (W0 := mk2 3 1 (fun i j => sumf 2 _)).
    destruct (bcast2_same _ _ _ Rplus W0 sv 3 1 eq_refl Ss) as (ws & Ew & Sw & Vw). rewrite Ew.
    assert (VW : forall i, (i < 3)%nat -> ws.[i, 0%nat] = sv.[i, 0%nat]).
    { intros i Hi. rewrite Vw by lia. unfold W0. rewrite at_mk2. unfold zeros2. rewrite (sumf_ext 2 _ (fun _ => 0)) by (intros; rewrite at_mk2; ring). rewrite sumf_0. ring. }
    assert (SG : / 10 * Rmin (norm_col (amap (fun x => x - 1) ws)) (norm_col (amap (fun x => x + 1) ws)) = sig).
    { unfold sig, norm_col. change (nrows (amap (fun x : R => x - 1) ws)) with (nrows ws). change (ncols (amap (fun x : R => x - 1) ws)) with (ncols ws).
      change (nrows (amap (fun x : R => x + 1) ws)) with (nrows ws). change (ncols (amap (fun x : R => x + 1) ws)) with (ncols ws). rewrite (nrows_shape2 _ ws _ _ Sw), (ncols_shape2 _ ws _ _ Sw).
      cbn [sumf].
      repeat match goal with |- context [(amap ?f ws).[?i, 0%nat]] => change ((amap f ws).[i, 0%nat]) with (f (ws.[i, 0%nat])) end. cbv beta.
      rewrite !VW by lia. rewrite V0, V1, V2. do 2 f_equal; f_equal; field. }
    rewrite SG. clear SG Ew Vw VW. change (Z.to_nat (10 * 2)) with 20%nat.
    destruct (proj1 (alt_step sv (zeros2 2 1) Ss Vs eq_refl) eq_refl eq_refl) as (p & Ep & Sp & P0 & P1).
    assert (Est := proj2 (alt_step sv p Ss Vs Sp) P0 P1).
    assert (BU : mfold (fun z (_ : nat) => rw_step W32 sv sig z) (zeros2 2 1) (seq 0 20) w = (Ok p, w)).
    { cbn [seq mfold]. unfold mbind at 1. rewrite Ep. do 19 (unfold mbind at 1; rewrite Est). reflexivity. }
    unfold mbind at 1. rewrite BU. unfold mbind at 1, mlift at 1. change (dimZ 2) with (Ok 2%nat). unfold mbind at 1. cbn [rw_walk]. unfold mbind at 1. rewrite Est. unfold mbind at 1. unfold mbind at 1. rewrite Est.
    unfold mbind at 1, mret at 1 2. unfold mlift.
    destruct (reshape_ok R [2%nat; 2%nat] (mk2 2 2 (fun i j => (nth j [p; p] p).[i, 0%nat]))) as (Z & EZ & SZ & VZ); [reflexivity|]. unfold mret. rewrite EZ.
    exists Z. split; auto. split; auto. rewrite !VZ by (constructor; [lia|constructor; [lia|constructor]]). change (unravel (shape (mk2 2 2 (fun i j => (nth j [p; p] p).[i, 0%nat]))) (ravel [2%nat; 2%nat] [0%nat; 0%nat])) with [0%nat; 0%nat].
    change (unravel (shape (mk2 2 2 (fun i j => (nth j [p; p] p).[i, 0%nat]))) (ravel [2%nat; 2%nat] [0%nat; 1%nat])) with [0%nat; 1%nat]. rewrite !at_mk2. cbn [nth]. auto.
  Qed.
End WalkWitness.

(** two inactive variables, two samples: the first returned row (9/10, 9/10)
    is made of coordinates of two points and violates the bounds *)
Theorem C27_random_walk_refuted : ~ forall (G : gen) (U L : Type) (B : backend) sb m n Wm W1 W2 y N (w w' : world G U L) Z,
  frame sb m n Wm W1 W2 -> shape y = [n] -> linprog_ok (linprog B) -> gurobi_ok (gurobi B) ->
  (exists z, inpoly W2 m (m - n) (shift W1 y n) z) ->
  random_walk_z B N y W1 W2 w = (Ok Z, w') ->
  forall r, (r < nrows Z)%nat -> inpoly W2 m (m - n) (shift W1 y n) (fun j => Z.[r, j]).
Proof.
  intros C. destruct alt_walk as (Z & E & SZ & Z0 & Z1).
  assert (HG : gurobi_ok (gurobi backend_ref)) by (intros P l H; discriminate).
  assert (NE : exists z, inpoly W32 3 (3 - 1) (shift W31 (vec_of [1]) 1) z).
  { exists (fun _ => 0). intros i Hi. unfold shift. destruct i as [|[|[|i]]]; try lia; simpl; lra. }
  assert (Q := C _ _ _ backend_ref sub3 3%nat 1%nat W3 W31 W32 (vec_of [1]) 2%Z _ _ Z frame3 eq_refl linprog_ref_ok HG NE E 0%nat). rewrite (nrows_shape2 _ Z _ _ SZ) in Q. specialize (Q ltac:(lia) 0%nat ltac:(lia)). unfold shift in Q. simpl in Q. rewrite Z0, Z1 in Q. lra.
Qed.
Print Assumptions C27_random_walk_refuted.

(** the same run meets the hypotheses of the partial theorem: its two walk
    points are feasible *)
Example C27_case : exists (G : gen) (w : world G unit unit) Z (pts : nat -> nat -> R), random_walk_z backend_ref 2 (vec_of [1]) W31 W32 w = (Ok Z, w) /\
  (forall l, (l < 2)%nat -> inpoly W32 3 2 (shift W31 (vec_of [1]) 1) (pts l)) /\ Z.[1%nat, 0%nat] = pts 0%nat 1%nat.
Proof.
  destruct alt_walk as (Z & E & SZ & Z0 & Z1). assert (HG : gurobi_ok (gurobi backend_ref)) by (intros P l H; discriminate).
  destruct (C27_random_walk_partial _ _ _ backend_ref sub3 3 1 W3 W31 W32 (vec_of [1]) 2 _ _ Z frame3 eq_refl linprog_ref_ok HG E) as (Nn & pts & EN & _ & P & V & _).
  assert (Nn = 2%nat) by lia. subst Nn. do 2 eexists. exists Z, pts. split; [exact E|]. split; auto. apply (V 1%nat 0%nat); lia.
Qed.
