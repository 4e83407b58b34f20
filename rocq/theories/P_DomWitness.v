(** A run of sample_z that leaves the polytope (witness for C22) *)
From Coq Require Import String Reals Lra Lia List Arith ZArith Bool.
From Verif Require Import Prelude Py NumArr LinAlg Toy M_Misc M_RespSurf M_Gradients M_Subspaces M_QP M_Domains P_QP P_Misc P_Domains P_DomSample Properties_QP Properties_Domains.
Import ListNotations.
Open Scope R_scope.

(** the reference LP solver on programs with inequality constraints *)
Lemma ref_ineq : forall (G : gen) (U L : Type) m n c A b lo (w : world G U L), shape c = [n; 1%nat] -> shape A = [m; n] -> shape b = [m; 1%nat] ->
  (exists x, doc_ineq A b m n x) -> (forall x, doc_ineq A b m n x -> lo <= lin_obj c n x) ->
  exists z, linear_program_ineq backend_ref (qp_init backend_ref "GUROBI") c A b w = (Ok z, w) /\ solves n (doc_ineq A b m n) (lin_obj c n) z.
Proof.
  intros G U L m n c A b lo w Hc HA Hb (x0 & H0) HB.
  destruct (C51_linear_program_ineq_posed (G := G) (U := U) (L := L) backend_ref m n c A b Hc HA Hb) as [(P & W1 & F1 & O1 & R1) _].
  destruct (linprog_ref_succeeds P n lo) as (x & Ex); auto.
  - exists x0. now apply F1.
  - intros x Hx. rewrite O1. apply HB. now apply F1.
  - assert (Q := R1 w). unfold lp_outcome in Q. change (linprog backend_ref P) with (linprog_ref P) in Q. rewrite Ex in Q.
    destruct (linprog_ref_ok P n x W1 Ex) as (Sx & _). destruct (flat_col x n Sx) as (z & Ez & Sz & Vz). rewrite Ez in Q. exists z. split; [exact Q|].
    assert (HG : gurobi_ok (gurobi backend_ref)) by (intros P' l H; discriminate).
    apply (proj2 (C51_linear_programs_solved (G := G) (U := U) (L := L) backend_ref "GUROBI" m n c A b (zeros2 n 1) (zeros2 n 1) w w z linprog_ref_ok HG Hc HA Hb eq_refl eq_refl) Q).
Qed.

(** a generator whose draws are all the same *)
Program Definition flat_gen (nv uv : R) (H : 0 <= uv < 1) : gen := {|
  gst := unit; g_seed := fun _ => tt; g_normal := fun s => (nv, s); g_unif := fun s => (uv, s); g_randint := fun hi s => (0%nat, s) |}.

Lemma flat_normals : forall nv uv H (U L : Type) k (w : world (flat_gen nv uv H) U L), repeatM k draw_normal w = (Ok (repeat nv k), w).
Proof.
  intros nv uv H U L. induction k; intros w; [reflexivity|]. cbn [repeatM]. unfold mbind at 1, draw_normal at 1. cbn [g_normal flat_gen].
  unfold mbind. replace (set_rng w (rng w)) with w by (destruct w; reflexivity). rewrite IHk. reflexivity.
Qed.
Lemma flat_uniforms : forall nv uv H (U L : Type) lo hi k (w : world (flat_gen nv uv H) U L), repeatM k (draw_uniform lo hi) w = (Ok (repeat (lo + (hi - lo) * uv) k), w).
Proof.
  intros nv uv H U L lo hi. induction k; intros w; [reflexivity|]. cbn [repeatM]. unfold mbind at 1, draw_uniform at 1. cbn [g_unif flat_gen].
  unfold mbind. replace (set_rng w (rng w)) with w by (destruct w; reflexivity). rewrite IHk. reflexivity.
Qed.

Section Witness.
  Variable delta : R.
  Hypothesis D0 : 0 < delta.
  Hypothesis D1 : delta <= / 10 ^ 9.
  Hypothesis D2 : / 10 ^ 9 <= delta.
  Let t := / 10 ^ 4.
  Definition ug : 0 <= 9 / 10 < 1.  Proof. lra. Qed.
  Notation GG := (flat_gen (/ 10 ^ 4) (9 / 10) ug).
  Variable w : world GG unit unit.
  Let y := mk1 1 (fun _ => 5 / 3 - delta).
  Let s := shift W31 y 1.

  Lemma d_small : delta <= 1 / 1000000000.
  Proof. replace (1 / 1000000000) with (/ 10 ^ 9) by field. exact D1. Qed.

  Lemma sl3 : forall z q, (q < 6)%nat -> slack W32 3 2 s z q =
    match q with
    | O => 14 / 9 - delta / 3 + 2 / 3 * z 0%nat + 2 / 3 * z 1%nat
    | 1%nat => 19 / 9 - 2 / 3 * delta + 1 / 3 * z 0%nat - 2 / 3 * z 1%nat
    | 2%nat => 19 / 9 - 2 / 3 * delta - 2 / 3 * z 0%nat + 1 / 3 * z 1%nat
    | 3%nat => 4 / 9 + delta / 3 - 2 / 3 * z 0%nat - 2 / 3 * z 1%nat
    | 4%nat => - (1 / 9) + 2 / 3 * delta - 1 / 3 * z 0%nat + 2 / 3 * z 1%nat
    | _ => - (1 / 9) + 2 / 3 * delta + 2 / 3 * z 0%nat - 1 / 3 * z 1%nat
    end.
  Proof. intros z q Hq. destruct q as [|[|[|[|[|[|q]]]]]]; try lia; unfold slack, s, shift, y; simpl; lra. Qed.

  (** the polytope is a triangle of size about delta around (1/3, 1/3) *)
  Lemma tri : forall z, inpoly W32 3 2 s z <->
    z 0%nat + z 1%nat <= 2 / 3 + delta / 2 /\ z 0%nat - 2 * z 1%nat <= - (1 / 3) + 2 * delta /\ z 1%nat - 2 * z 0%nat <= - (1 / 3) + 2 * delta.
  Proof.
    intros z. rewrite <- slack_poly. change (2 * 3)%nat with 6%nat. assert (DS := d_small). split.
    - intros H. assert (A3 := H 3%nat ltac:(lia)). assert (A4 := H 4%nat ltac:(lia)). assert (A5 := H 5%nat ltac:(lia)). rewrite sl3 in A3, A4, A5 by lia. lra.
    - intros H q Hq. rewrite sl3 by auto. destruct q as [|[|[|[|[|[|q]]]]]]; try lia; lra.
  Qed.
  Lemma tri_box : forall z, inpoly W32 3 2 s z -> 1 / 3 - 2 * delta <= z 0%nat <= 1 / 3 + delta /\ 1 / 3 - 2 * delta <= z 1%nat <= 1 / 3 + delta.
  Proof. intros z H. apply tri in H. lra. Qed.
  Lemma tri_p : inpoly W32 3 2 s (fun _ => 1 / 3 - 2 * delta).  Proof. apply tri. lra. Qed.
  Lemma tri_q : inpoly W32 3 2 s (fun j => match j with O => 1 / 3 + delta | _ => 1 / 3 - delta / 2 end).  Proof. apply tri. simpl. lra. Qed.
  Lemma tri_r : inpoly W32 3 2 s (fun j => match j with O => 1 / 3 - delta / 2 | _ => 1 / 3 + delta end).  Proof. apply tri. simpl. lra. Qed.

  Lemma wit_shift : exists sv, shift_of W31 y 3 = Ok sv /\ shape sv = [3%nat; 1%nat] /\ forall i, (i < 3)%nat -> sv.[i, 0%nat] = s i.
  Proof. destruct (shift_of_ok W31 y 3 1 eq_refl eq_refl) as (sv & E & Ss & V). exists sv. split; auto. Qed.
  Lemma wit_pair : forall sv, shape sv = [3%nat; 1%nat] -> (forall i, (i < 3)%nat -> sv.[i, 0%nat] = s i) -> exists A b, polytope W32 sv 3 = Ok (A, b) /\
    shape A = [6%nat; 2%nat] /\ shape b = [6%nat; 1%nat] /\ (forall z q, (q < 6)%nat -> sumf 2 (fun j => A.[q, j] * z j) - b.[q, 0%nat] = slack W32 3 2 s z q) /\
    forall z, doc_ineq A b 6 2 z <-> inpoly W32 3 2 s z.
  Proof.
    intros sv Ss Vs. destruct (polytope_pair W32 sv 3 2 eq_refl Ss) as (A & b & E & SA & Sb & V). change (2 * 3)%nat with 6%nat in *.
    assert (V' : forall z q, (q < 6)%nat -> sumf 2 (fun j => A.[q, j] * z j) - b.[q, 0%nat] = slack W32 3 2 s z q).
    { intros z q Hq. rewrite V by auto. unfold slack. destruct (Nat.ltb_spec q 3); rewrite Vs by lia; reflexivity. }
    exists A, b. split; auto. split; auto. split; auto. split; auto. intros z. unfold doc_ineq. rewrite <- slack_poly. change (2 * 3)%nat with 6%nat. split; intros H q Hq; specialize (H q Hq).
    - rewrite <- V' by auto. lra.
    - rewrite <- V' in H by auto. lra.
  Qed.

  (** rejection sampling: all 50 points fall outside *)
  Lemma wit_reject : rejection_sampling_z backend_ref 1 y W31 W32 w = (Ok None, w).
  Proof.
    assert (DS := d_small). destruct wit_shift as (sv & Es & Ss & Vs). destruct (wit_pair sv Ss Vs) as (A & b & Ep & SA & Sb & V & DI).
    unfold rejection_sampling_z. unfold mbind at 1, mlift at 1. change (shape2 W31) with (Ok (3%nat, 1%nat)). cbv beta iota.
    unfold mbind at 1, mlift at 1. rewrite Es. unfold mbind at 1, mlift at 1. rewrite Ep. unfold mbind at 1, mlift at 1. change (guard (Nat.leb 1 3) ValueError) with (Ok tt : res unit). cbv beta iota zeta.
    assert (LP1 : forall i sg, (i < 2)%nat -> sg * sg = 1 -> exists z, linear_program_ineq backend_ref (qp_init backend_ref "GUROBI") (unit_col (3 - 1) i sg) A b w = (Ok z, w) /\
       shape z = [2%nat; 1%nat] /\ inpoly W32 3 2 s (fun j => z.[j, 0%nat]) /\ forall x, inpoly W32 3 2 s x -> sg * z.[i, 0%nat] <= sg * x i).
    { intros i sg Hi Hs.
      assert (OB : forall x, lin_obj (unit_col (3 - 1) i sg) 2 x = sg * x i).
      { intros x. unfold lin_obj, unit_col. rewrite (sumf_single 2 i); auto. - now rewrite at_mk2, Nat.eqb_refl. - intros j Hj Hne. rewrite at_mk2, (proj2 (Nat.eqb_neq j i) Hne). ring. }
      destruct (ref_ineq GG unit unit 6 2 (unit_col (3 - 1) i sg) A b (-10) w eq_refl SA Sb) as (z & Ez & Sz & Fz & Oz).
      - exists (fun _ => 1 / 3 - 2 * delta). apply DI. apply tri_p.
      - intros x Hx. rewrite OB. apply DI, tri_box in Hx. destruct i as [|[|i]]; try lia; nra.
      - exists z. split; auto. split; auto. split; [now apply DI|]. intros x Hx. apply DI in Hx. specialize (Oz x Hx). rewrite !OB in Oz. exact Oz. }
    assert (MIN : forall i, (i < 2)%nat -> exists z, linear_program_ineq backend_ref (qp_init backend_ref "GUROBI") (unit_col (3 - 1) i 1) A b w = (Ok z, w) /\ get2 z i 0 = Ok (1 / 3 - 2 * delta)).
    { intros i Hi. destruct (LP1 i 1 Hi ltac:(ring)) as (z & E & Sz & Fz & Oz). exists z. split; auto. unfold get2. rewrite Sz. destruct (Nat.ltb_spec i 2); [|lia]. change (true && Nat.ltb 0 1)%bool with true. cbv iota. f_equal.
      specialize (Oz _ tri_p). cbv beta in Oz. apply tri_box in Fz. cbv beta in Fz. destruct i as [|[|i]]; try lia; lra. }
    assert (MAX : forall i, (i < 2)%nat -> exists z, linear_program_ineq backend_ref (qp_init backend_ref "GUROBI") (unit_col (3 - 1) i (-1)) A b w = (Ok z, w) /\ get2 z i 0 = Ok (1 / 3 + delta)).
    { intros i Hi. destruct (LP1 i (-1) Hi ltac:(ring)) as (z & E & Sz & Fz & Oz). exists z. split; auto. unfold get2. rewrite Sz. destruct (Nat.ltb_spec i 2); [|lia]. change (true && Nat.ltb 0 1)%bool with true. cbv iota. f_equal.
      apply tri_box in Fz. cbv beta in Fz. destruct i as [|[|i]]; try lia; [specialize (Oz _ tri_q)|specialize (Oz _ tri_r)]; cbv beta iota in Oz; lra. }
    destruct (MIN 0%nat ltac:(lia)) as (z1 & E1 & G1). destruct (MAX 0%nat ltac:(lia)) as (z2 & E2 & G2). destruct (MIN 1%nat ltac:(lia)) as (z3 & E3 & G3). destruct (MAX 1%nat ltac:(lia)) as (z4 & E4 & G4).
    set (lo := 1 / 3 - 2 * delta) in *. set (hi := 1 / 3 + delta) in *.
    match goal with |- mbind ?m ?k w = _ => assert (EB : m w = (Ok [(lo, hi); (lo, hi)], w)) end.
    { change (seq 0 (3 - 1)) with [0; 1]%nat. cbn [mmap]. unfold mbind, mlift, mret. rewrite E1, G1, E2, G2, E3, G3, E4, G4. reflexivity. }
    unfold mbind at 1. rewrite EB. clear EB MIN MAX LP1 E1 E2 E3 E4 G1 G2 G3 G4 z1 z2 z3 z4. cbv beta iota. change (3 - 1)%nat with 2%nat.
    set (lbox := mk2 1 2 _). set (ubox := mk2 1 2 _).
    unfold mbind at 1, mlift at 1. assert (EI : bounded_init lbox ubox = Ok {| bn_lb := lbox; bn_ub := ubox |}).
    { unfold bounded_init. change (size lbox) with 2%nat. change [1%nat; 2%nat] with (shape lbox) at 1. rewrite reshape_id. cbn [rbind]. change [1%nat; 2%nat] with (shape ubox). rewrite reshape_id. reflexivity. }
    rewrite EI. clear EI. unfold mbind at 1, mlift at 1. change (dimZ (50 * 1)) with (Ok 50%nat). unfold mbind at 1. unfold uniform2. unfold mbind at 1. rewrite flat_uniforms. cbn [mret].
    set (Zu := mk2 50 2 _).
    destruct (bounded_unnormalize_ok {| bn_lb := lbox; bn_ub := ubox |} 2 (fun _ => lo) (fun _ => hi) eq_refl eq_refl) with (X := amap Fin Zu) (M := 50%nat) as (Zx & Ez & Sz & Vz).
    { intros j Hj. destruct j as [|[|j]]; try lia; reflexivity. } { intros j Hj. destruct j as [|[|j]]; try lia; reflexivity. } { reflexivity. }
    unfold mbind at 1, mlift at 1. rewrite Ez.
    assert (ST : shape (tr (amap fin Zx)) = [2%nat; 50%nat]).
    { unfold tr. cbn [shape mk2]. unfold nrows, ncols. cbn [shape amap]. rewrite Sz. reflexivity. }
    assert (VB : forall i j, (i < 50)%nat -> (j < 2)%nat -> (amap fin Zx).[i, j] = 1 / 3 + 7 / 10 * delta).
    { intros i j Hi Hj. change ((amap fin Zx).[i, j]) with (fin (Zx.[i, j])). rewrite Vz by auto. change ((amap Fin Zu).[i, j]) with (Fin (Zu.[i, j])). unfold Zu. rewrite at_mk2.
      rewrite (nth_indep _ 0 (-1 + (1 - -1) * (9 / 10))) by (rewrite repeat_length; nia). rewrite nth_repeat. cbn [xadd xmul]. rewrite xdiv_fin by lra. cbn [xadd fin]. unfold lo, hi. lra. }
    unfold mbind at 1, mlift at 1. rewrite (npdot2 A (tr (amap fin Zx)) 6 2 50 SA ST).
    unfold mbind at 1, mlift at 1.
    destruct (bcast2_rcol _ _ _ (fun a b => Rleb b a) (mk2 6 50 (fun i j => sumf 2 (fun l => A.[i, l] * (tr (amap fin Zx)).[l, j]))) b 6 50 eq_refl Sb) as (ge & Eg & Sg & Vg). rewrite Eg.
    rewrite (nrows_shape2 _ ge _ _ Sg), (ncols_shape2 _ ge _ _ Sg). replace (nrows (amap fin Zx)) with 50%nat by (unfold nrows; cbn [shape amap]; rewrite Sz; reflexivity).
    rewrite mask_filter.
    assert (EF : filter (fun j => forallb (fun i => ge.[i, j]) (seq 0 6)) (seq 0 50) = []).
    { assert (K : forall l, (forall j, In j l -> (j < 50)%nat) -> filter (fun j => forallb (fun i => ge.[i, j]) (seq 0 6)) l = []).
      { induction l as [|j l IH]; intros HJ; [reflexivity|]. cbn [filter]. rewrite IH by (intros; apply HJ; now right).
        assert (Hj : (j < 50)%nat) by (apply HJ; now left).
        destruct (forallb _ (seq 0 6)) eqn:EQ; [|reflexivity]. exfalso. rewrite forallb_forall in EQ. specialize (EQ 3%nat ltac:(apply in_seq; lia)). rewrite Vg in EQ by lia.
        apply Rleb_spec in EQ. rewrite at_mk2 in EQ.
        assert (Q := V (fun l => (amap fin Zx).[j, l]) 3%nat ltac:(lia)). rewrite sl3 in Q by lia. rewrite !VB in Q by lia.
        change (fun l => A.[3%nat, l] * (tr (amap fin Zx)).[l, j]) with (fun l => A.[3%nat, l] * (amap fin Zx).[j, l]) in EQ. lra. }
      apply K. intros j Hj. apply in_seq in Hj. lia. }
    rewrite EF. reflexivity.
  Qed.

  (** hit and run: the start has every slack at least delta/6 *)
  Lemma wit_start : exists z0, chebyshev_start backend_ref y W31 W32 w = (Ok z0, w) /\ shape z0 = [2%nat; 1%nat] /\
    inpoly W32 3 2 s (fun j => z0.[j, 0%nat]) /\ forall q, (q < 6)%nat -> delta / 6 <= slack W32 3 2 s (fun j => z0.[j, 0%nat]) q.
  Proof.
    assert (DS := d_small). assert (HG : gurobi_ok (gurobi backend_ref)) by (intros P l H; discriminate).
    assert (NE : exists z, inpoly W32 3 (3 - 1) s z) by (exists (fun _ => 1 / 3 - 2 * delta); apply tri_p).
    destruct (C28_start_found GG unit unit backend_ref 3 1 y W31 W32 w) as (z0 & E); auto.
    - apply linprog_ref_ok.
    - exact linprog_ref_succeeds.
    - exists 0%nat, 0%nat. split; [lia|]. split; [lia|]. simpl. lra.
    - destruct (C28_start_is_chebyshev_centre GG unit unit backend_ref 3 1 y W31 W32 w w z0) as (_ & Sz & IP & r & R0 & _ & RM & SL); auto; [apply linprog_ref_ok|].
      exists z0. split; auto. split; auto. split; [exact IP|]. change (3 - 1)%nat with 2%nat in *. change (2 * 3)%nat with 6%nat in *. fold s in RM, SL.
      assert (NB : forall i, (i < 3)%nat -> 2 / 3 <= rownorm W32 2 i <= 1).
      { intros i Hi. unfold rownorm. assert (Q : 4 / 9 <= sumf 2 (fun j => W32.[i, j] * W32.[i, j]) <= 1) by (destruct i as [|[|[|i]]]; try lia; simpl; lra).
        split; [replace (2 / 3) with (sqrt (4 / 9))|replace 1 with (sqrt 1) by apply sqrt_1; apply sqrt_le_1; lra].
        - apply sqrt_le_1; lra.
        - replace (4 / 9) with ((2 / 3) * (2 / 3)) by lra. apply sqrt_square. lra. }
      assert (RD : delta / 4 <= r).
      { apply (RM (fun _ => 1 / 3 - delta / 2)); [lra|]. apply cheb_ball; [lra|]. intros q Hq. change (2 * 3)%nat with 6%nat in Hq. rewrite Nat.eqb_refl.
        assert (B := NB (if Nat.ltb q 3 then q else (q - 3)%nat) ltac:(destruct (Nat.ltb_spec q 3); lia)). set (nn := rownorm W32 2 _) in *.
        apply Rle_trans with (delta / 4); [nra|]. rewrite sl3 by auto. cbn [Nat.eqb]. destruct q as [|[|[|[|[|[|q]]]]]]; try lia; lra. }
      intros q Hq. specialize (SL q Hq). assert (B := NB (if Nat.ltb q 3 then q else (q - 3)%nat) ltac:(destruct (Nat.ltb_spec q 3); lia)). unfold rownorm in B.
      set (nn := sqrt _) in *. apply Rle_trans with (r * nn); [nra|exact SL].
  Qed.

  Lemma sqrt_eps_big : / 10 ^ 8 < sqrt_eps.
  Proof.
    unfold sqrt_eps. replace (/ 10 ^ 8) with (sqrt (/ 10 ^ 8 * / 10 ^ 8)) by (apply sqrt_square; left; apply Rinv_0_lt_compat; apply pow_lt; lra).
    apply sqrt_lt_1.
    - assert (0 < / 10 ^ 8) by (apply Rinv_0_lt_compat; apply pow_lt; lra). nra.
    - left. apply Rinv_0_lt_compat. apply pow_lt. lra.
    - rewrite <- Rinv_mult. apply Rinv_lt_contravar.
      + apply Rmult_lt_0_compat; [apply pow_lt; lra|]. apply Rmult_lt_0_compat; apply pow_lt; lra.
      + simpl. lra.
  Qed.
  Lemma sqrt_eps_small : sqrt_eps < 1.
  Proof. unfold sqrt_eps. apply Rlt_le_trans with (sqrt 1); [|rewrite sqrt_1; lra]. apply sqrt_lt_1; [left; apply Rinv_0_lt_compat, pow_lt; lra|lra|]. apply Rlt_le_trans with (/ 1); [|lra]. apply Rinv_lt_contravar; simpl; lra. Qed.

  (** the step goes far out *)
  Lemma wit_step : forall A b z0, shape A = [6%nat; 2%nat] -> shape b = [6%nat; 1%nat] ->
    (forall z q, (q < 6)%nat -> sumf 2 (fun j => A.[q, j] * z j) - b.[q, 0%nat] = slack W32 3 2 s z q) ->
    shape z0 = [2%nat; 1%nat] -> inpoly W32 3 2 s (fun j => z0.[j, 0%nat]) -> (forall q, (q < 6)%nat -> delta / 6 <= slack W32 3 2 s (fun j => z0.[j, 0%nat]) q) ->
    forall d, shape d = [2%nat; 1%nat] -> (forall j, (j < 2)%nat -> d.[j, 0%nat] = t) ->
    exists z1 w1, hr_step A b z0 d w = (Ok z1, w1) /\ shape z1 = [2%nat; 1%nat] /\ 5 <= z1.[0%nat, 0%nat] /\ 5 <= z1.[1%nat, 0%nat].
  Proof.
    intros A b z0 SA Sb V Sz IP SL d Sd Vd. assert (DS := d_small). assert (SB := sqrt_eps_big). assert (SM := sqrt_eps_small).
    assert (T0 : 0 < t) by (unfold t; apply Rinv_0_lt_compat, pow_lt; lra).
    replace (/ 10 ^ 8) with (1 / 100000000) in SB by field.
    assert (BX := tri_box _ IP). cbv beta in BX. destruct BX as [BX BY]. set (a0 := z0.[0%nat, 0%nat]) in *. set (b0 := z0.[1%nat, 0%nat]) in *.
    (* the six values of f = b - A z0 and g = A d *)
    set (fv := fun i => b.[i, 0%nat] - sumf 2 (fun j => A.[i, j] * z0.[j, 0%nat])).
    assert (FV : forall q, (q < 6)%nat -> fv q = - slack W32 3 2 s (fun j => z0.[j, 0%nat]) q) by (intros q Hq; unfold fv; rewrite <- V by auto; lra).
    set (gv := fun i => sumf 2 (fun j => A.[i, j] * d.[j, 0%nat])).
    assert (GV : forall q, (q < 6)%nat -> gv q = slack W32 3 2 s (fun j => d.[j, 0%nat]) q - slack W32 3 2 s (fun _ => 0) q).
    { intros q Hq. rewrite <- !V by auto. unfold gv. rewrite (sumf_ext 2 (fun j => A.[q, j] * 0) (fun _ => 0)) by (intros; ring). rewrite sumf_0. ring. }
    assert (G0 : gv 0%nat = 4 / 3 * t) by (rewrite GV, !sl3 by lia; rewrite !Vd by lia; lra).
    assert (G1 : gv 1%nat = - (1 / 3 * t)) by (rewrite GV, !sl3 by lia; rewrite !Vd by lia; lra).
    assert (G2 : gv 2%nat = - (1 / 3 * t)) by (rewrite GV, !sl3 by lia; rewrite !Vd by lia; lra).
    assert (F0 : fv 0%nat = - (14 / 9 - delta / 3 + 2 / 3 * a0 + 2 / 3 * b0)) by (rewrite FV, sl3 by lia; reflexivity).
    assert (F1 : fv 1%nat = - (19 / 9 - 2 / 3 * delta + 1 / 3 * a0 - 2 / 3 * b0)) by (rewrite FV, sl3 by lia; reflexivity).
    assert (F2 : fv 2%nat = - (19 / 9 - 2 / 3 * delta - 2 / 3 * a0 + 1 / 3 * b0)) by (rewrite FV, sl3 by lia; reflexivity).
    assert (F3 : - sqrt_eps <= fv 3%nat) by (rewrite FV, sl3 by lia; fold a0 b0; lra).
    assert (F4 : - sqrt_eps <= fv 4%nat) by (rewrite FV, sl3 by lia; fold a0 b0; lra).
    assert (F5 : - sqrt_eps <= fv 5%nat) by (rewrite FV, sl3 by lia; fold a0 b0; lra).
    assert (N3 : Rltb (fv 3%nat) (- sqrt_eps) = false) by now apply Rltb_false.
    assert (N4 : Rltb (fv 4%nat) (- sqrt_eps) = false) by now apply Rltb_false.
    assert (N5 : Rltb (fv 5%nat) (- sqrt_eps) = false) by now apply Rltb_false.
    assert (N0 : Rltb (fv 0%nat) (- sqrt_eps) = true) by (apply Rltb_spec; lra).
    assert (N1 : Rltb (fv 1%nat) (- sqrt_eps) = true) by (apply Rltb_spec; lra).
    assert (N2 : Rltb (fv 2%nat) (- sqrt_eps) = true) by (apply Rltb_spec; lra).
    assert (RA : ratios (mk2 6 1 (fun i _ => fv i)) (mk2 6 1 (fun i _ => gv i)) (fun g => Rleb g 0) = [Fin (fv 1%nat / gv 1%nat); Fin (fv 2%nat / gv 2%nat)]).
    { unfold ratios. change (nrows (mk2 6 1 (fun i _ => fv i))) with 6%nat. cbn [seq filter]. rewrite !at_mk2. rewrite N0, N1, N2, N3, N4, N5, !andb_false_r, !andb_true_r.
      replace (Rleb (gv 0%nat) 0) with false by (symmetry; apply Rleb_false; lra). replace (Rleb (gv 1%nat) 0) with true by (symmetry; apply Rleb_spec; lra).
      replace (Rleb (gv 2%nat) 0) with true by (symmetry; apply Rleb_spec; lra). cbn [map]. rewrite !at_mk2, !xdiv_fin by lra. reflexivity. }
    assert (RI : ratios (mk2 6 1 (fun i _ => fv i)) (mk2 6 1 (fun i _ => gv i)) (fun g => Rltb 0 g) = [Fin (fv 0%nat / gv 0%nat)]).
    { unfold ratios. change (nrows (mk2 6 1 (fun i _ => fv i))) with 6%nat. cbn [seq filter]. rewrite !at_mk2. rewrite N0, N1, N2, N3, N4, N5, !andb_false_r, !andb_true_r.
      replace (Rltb 0 (gv 0%nat)) with true by (symmetry; apply Rltb_spec; lra). replace (Rltb 0 (gv 1%nat)) with false by (symmetry; apply Rltb_false; lra).
      replace (Rltb 0 (gv 2%nat)) with false by (symmetry; apply Rltb_false; lra). cbn [map]. rewrite !at_mk2, !xdiv_fin by lra. reflexivity. }
    assert (EM : exists em, xmin (Fin (fv 1%nat / gv 1%nat)) (Fin (fv 2%nat / gv 2%nat)) = Fin em /\ (em = fv 1%nat / gv 1%nat \/ em = fv 2%nat / gv 2%nat)).
    { unfold xmin, xle, xbefore. destruct (Rlt_dec (fv 2%nat / gv 2%nat) (fv 1%nat / gv 1%nat)); cbn [negb]; eauto. }
    destruct EM as (em & Em & EC).
    assert (EB : 59 / 10 <= em * t).
    { destruct EC as [-> | ->]; [rewrite G1|rewrite G2].
      - replace (fv 1%nat / - (1 / 3 * t) * t) with (- 3 * fv 1%nat) by (field; lra). lra.
      - replace (fv 2%nat / - (1 / 3 * t) * t) with (- 3 * fv 2%nat) by (field; lra). lra. }
    set (ei := fv 0%nat / gv 0%nat) in *. assert (EI : -2 <= ei * t). { unfold ei. rewrite G0. replace (fv 0%nat / (4 / 3 * t) * t) with (3 / 4 * fv 0%nat) by (field; lra). lra. }
    unfold hr_step. unfold mbind at 1, mlift at 1. rewrite (npdot2 A z0 6 2 1 SA Sz). unfold mbind at 1, mlift at 1.
    destruct (bcast2_same _ _ _ Rminus b (mk2 6 1 (fun i j => sumf 2 (fun l => A.[i, l] * z0.[l, j]))) 6 1 Sb eq_refl) as (f & Ef & Sf & Vf). rewrite Ef.
    unfold mbind at 1, mlift at 1. rewrite (npdot2 A d 6 2 1 SA Sd).
    assert (RE : forall sel, ratios f (mk2 6 1 (fun i j => sumf 2 (fun l => A.[i, l] * d.[l, j]))) sel = ratios (mk2 6 1 (fun i _ => fv i)) (mk2 6 1 (fun i _ => gv i)) sel).
    { intros sel. apply (ratios_ext _ _ _ _ sel 6); [apply (nrows_shape2 _ f _ _ Sf)|reflexivity| |reflexivity]. intros i Hi. rewrite Vf by lia. reflexivity. }
    rewrite !RE, RA, RI. unfold mbind at 1, mlift at 1. cbn [np_amin fold_left]. rewrite Em. unfold mbind at 1, mlift at 1. cbn [np_amax fold_left].
    unfold mbind at 1. cbn [uniform_x]. unfold draw_uniform. cbn [g_unif flat_gen]. set (e := ei + (em - ei) * (9 / 10)).
    destruct (bcast2_same _ _ _ Rplus z0 (amap (Rmult e) d) 2 1 Sz Sd) as (z1 & E1 & S1 & V1).
    exists z1. eexists. split; [unfold mlift; rewrite E1; reflexivity|]. split; auto.
    assert (EE : 51 / 10 <= e * t) by (unfold e; lra).
    assert (VV : forall j, (j < 2)%nat -> z1.[j, 0%nat] = z0.[j, 0%nat] + e * t) by (intros j Hj; rewrite V1 by lia; change ((amap (Rmult e) d).[j, 0%nat]) with (e * d.[j, 0%nat]); rewrite Vd by auto; reflexivity).
    rewrite !VV by lia. fold a0 b0. split; lra.
  Qed.

  Lemma wit_sample : exists Z w1, sample_z backend_ref (IsA 1%Z) y W31 W32 w = (Ok Z, w1) /\ shape Z = [1%nat; 2%nat] /\ 5 <= Z.[0%nat, 0%nat] /\ 5 <= Z.[0%nat, 1%nat].
  Proof.
    assert (DS := d_small). assert (T0 : 0 < t) by (unfold t; apply Rinv_0_lt_compat, pow_lt; lra).
    unfold sample_z. unfold mbind at 1. rewrite wit_reject. unfold hit_and_run_z. unfold mbind at 1, mlift at 1. change (shape2 W31) with (Ok (3%nat, 1%nat)). cbv beta iota zeta.
    destruct wit_start as (z0 & E0 & S0 & IP & SL). unfold mbind at 1. rewrite E0.
    destruct wit_shift as (sv & Es & Ss & Vs). destruct (wit_pair sv Ss Vs) as (A & b & Ep & SA & Sb & V & _).
    unfold mbind at 1, mlift at 1. rewrite Es. unfold mbind at 1, mlift at 1. rewrite Ep. unfold mbind at 1, mlift at 1. change (dimZ 1) with (Ok 1%nat). change (3 - 1)%nat with 2%nat.
    (* the first direction is accepted *)
    set (d := mk2 2 1 (fun i j => nth (i * 1 + j) (repeat t (2 * 1)) 0)).
    assert (Vd : forall j, (j < 2)%nat -> d.[j, 0%nat] = t) by (intros [|[|j]] Hj; try lia; reflexivity).
    assert (EP : pick_dir A b z0 2 49 w = (Ok (Some d), w)).
    { destruct (bcast2_same _ _ _ Rplus z0 (amap (Rmult eps0) d) 2 1 S0 eq_refl) as (tv & Et & St & Vt).
      set (Atv := mk2 6 1 (fun i j => sumf 2 (fun l => A.[i, l] * tv.[l, j]))).
      destruct (bcast2_same _ _ _ Rleb Atv b 6 1 eq_refl Sb) as (le & El & Sl & Vl).
      assert (NB : any2 le = false).
      { unfold any2. rewrite (nrows_shape2 _ le _ _ Sl), (ncols_shape2 _ le _ _ Sl). apply not_true_is_false. intros Q. apply existsb_exists in Q. destruct Q as (i & Hi & Q).
        apply existsb_exists in Q. destruct Q as (j & Hj & Q). apply in_seq in Hi. apply in_seq in Hj. assert (j = 0%nat) by lia. subst j. rewrite Vl in Q by lia. apply Rleb_spec in Q. unfold Atv in Q. rewrite at_mk2 in Q.
        assert (Q2 := V (fun l => z0.[l, 0%nat] + eps0 * t) i ltac:(lia)).
        rewrite (sumf_ext 2 _ (fun l => A.[i, l] * (z0.[l, 0%nat] + eps0 * t))) in Q.
        2: { intros l Hl. rewrite Vt by lia. change ((amap (Rmult eps0) d).[l, 0%nat]) with (eps0 * d.[l, 0%nat]). now rewrite Vd. }
        assert (D3 : 1 / 1000000000 <= delta) by (replace (1 / 1000000000) with (/ 10 ^ 9) by field; exact D2).
        specialize (SL i ltac:(lia)). assert (ET : eps0 * t = 1 / 40000000000) by (unfold eps0, t; field).
        assert (Q3 : slack W32 3 2 s (fun l => z0.[l, 0%nat] + eps0 * t) i <= 0) by (rewrite <- Q2; lra).
        rewrite ET in Q3. rewrite sl3 in SL, Q3 by lia. destruct i as [|[|[|[|[|[|i]]]]]]; try lia; lra. }
      cbn [pick_dir]. unfold mbind at 1. unfold normal2. unfold mbind at 1. rewrite flat_normals. unfold mret at 1. change (mk2 2 1 (fun i j => nth (i * 1 + j) (repeat (/ 10 ^ 4) (2 * 1)) 0)) with d.
      unfold mbind at 1, mlift at 1. rewrite Et. unfold mbind at 1, mlift at 1. rewrite (npdot2 A tv 6 2 1 SA St). fold Atv. unfold mbind at 1, mlift at 1. rewrite El. rewrite NB. reflexivity. }
    destruct (wit_step A b z0 SA Sb V S0 IP SL d eq_refl Vd) as (z1 & w1 & E1 & S1 & V1 & V2).
    unfold mbind at 1. cbn [hr_walk]. unfold mbind at 1. rewrite EP. unfold mbind at 1. rewrite E1. unfold mbind at 1. cbn [hr_walk mret]. cbv beta iota.
    eexists. eexists. split; [reflexivity|]. split; [reflexivity|]. split; [exact V1|exact V2].
  Qed.
End Witness.
