(** Property C70: the test functions of the tutorials compute the published
    formulas of their physical inputs. *)
From Coq Require Import String Reals Lra Lia List Arith ZArith Bool.
From Verif Require Import Prelude Py NumArr M_Misc P_Misc M_Tutorials Deriv P_Tutorials Properties_Tutorials.
Import ListNotations.
Open Scope R_scope.

(** the M points P, whose coordinate j has the range [box j], scaled to [-1,1] *)
Definition scaled (box : list (R * R)) (M : nat) (P : nat -> nat -> R) : nd R :=
  mk2 M (List.length box) (fun i j => let (lo, hi) := nth j box (0, 1) in 2 * (P i j - lo) / (hi - lo) - 1).
Definition within (box : list (R * R)) (p : nat -> R) : Prop :=
  forall j, (j < List.length box)%nat -> fst (nth j box (0, 1)) <= p j <= snd (nth j box (0, 1)).

Lemma unnorm_scaled : forall box M P, (forall j, (j < List.length box)%nat -> fst (nth j box (0, 1)) < snd (nth j box (0, 1))) ->
  exists Y, unnorm (map fst box) (map snd box) (scaled box M P) = Ok Y /\ shape Y = [M; List.length box] /\
    forall i j, (i < M)%nat -> (j < List.length box)%nat -> Y.[i, j] = P i j.
Proof.
  intros box M P Hb. destruct (unnorm_ok (map fst box) (map snd box) (scaled box M P) M) as (Y & Y1 & Y2 & Y3).
  { now rewrite !map_length. } { now rewrite map_length. }
  rewrite map_length in Y2, Y3. exists Y. split; [exact Y1|]. split; [exact Y2|]. intros i j Hi Hj. rewrite Y3 by auto.
  rewrite (nth_indep (map snd box) 0 (snd (0, 1))) by (now rewrite map_length).
  rewrite (nth_indep (map fst box) 0 (fst (0, 1))) by (now rewrite map_length). rewrite !map_nth.
  unfold scaled. rewrite at_mk2 by auto. specialize (Hb j Hj). destruct (nth j box (0, 1)) as [lo hi]. cbn [fst snd] in *. field. lra.
Qed.

Lemma col_value : forall (f : nd R -> res (nd R)) row xl xu box M P,
  (forall X, f X = (do x <- unnorm xl xu (np_atleast_2d X); Ok (value_col row x))) -> xl = map fst box -> xu = map snd box ->
  (forall j, (j < List.length box)%nat -> fst (nth j box (0, 1)) < snd (nth j box (0, 1))) ->
  (forall r r', (forall b, (b < List.length box)%nat -> r b = r' b) -> row r = row r') ->
  exists F, f (scaled box M P) = Ok F /\ shape F = [M; 1%nat] /\ forall i, (i < M)%nat -> F.[i, 0%nat] = row (P i).
Proof.
  intros f row xl xu box M P Hf -> -> Hb Hr. destruct (unnorm_scaled box M P Hb) as (Y & Y1 & Y2 & Y3).
  rewrite Hf. change (np_atleast_2d (scaled box M P)) with (scaled box M P). rewrite Y1. cbn [rbind]. eexists. split; [reflexivity|].
  unfold value_col, nrows. rewrite Y2. split; [reflexivity|]. intros i Hi. rewrite at_mk2 by (auto; lia). apply Hr. intros b Hb'. auto.
Qed.
Ltac box_ok := intros j Hj; cbn [List.length] in Hj; do 10 (destruct j as [|j]; [cbn; lra|]); lia.
Ltac row_ext := let r := fresh "r" in let r' := fresh "r'" in let H := fresh "H" in intros r r' H; cbn [List.length] in H; repeat rewrite (H _) by lia; reflexivity.

(** ** The OTL circuit *)
Definition circuit_box : list (R * R) := [(50, 150); (25, 70); (1/2, 3); (6/5, 5/2); (1/4, 6/5); (50, 300)].
Definition midpoint_voltage (Rb1 Rb2 Rf Rc1 Rc2 beta : R) : R :=
  let Vb1 := 12 * Rb2 / (Rb1 + Rb2) in
  ((Vb1 + 74/100) * beta * (Rc2 + 9)) / (beta * (Rc2 + 9) + Rf) + (1135/100 * Rf) / (beta * (Rc2 + 9) + Rf)
  + (74/100 * Rf * beta * (Rc2 + 9)) / ((beta * (Rc2 + 9) + Rf) * Rc1).

Lemma circuit_value : forall M P, exists F, circuit (scaled circuit_box M P) = Ok F /\ shape F = [M; 1%nat] /\
  forall i, (i < M)%nat -> F.[i, 0%nat] = circuit_row (P i).
Proof.
  intros M P. apply (col_value circuit circuit_row otl_xl otl_xu).
  - reflexivity.
  - unfold otl_xl, circuit_box. cbn [map fst]. repeat (f_equal; try lra).
  - unfold otl_xu, circuit_box. cbn [map snd]. repeat (f_equal; try lra).
  - unfold circuit_box. box_ok.
  - unfold circuit_row, circuit_box. row_ext.
Qed.

Theorem C70_circuit : forall M P, exists F, circuit (scaled circuit_box M P) = Ok F /\ shape F = [M; 1%nat] /\
  (forall i, (i < M)%nat -> let V := F.[i, 0%nat] in let p := P i in
     within circuit_box p -> V = midpoint_voltage (p 0%nat) (p 1%nat) (p 2%nat) (p 3%nat) (p 4%nat) (p 5%nat) /\ 0 < V) /\
  (* a larger Rb1 lowers the voltage, a larger Rb2 raises it *)
  (forall i i', (i < M)%nat -> (i' < M)%nat -> within circuit_box (P i) -> within circuit_box (P i') ->
     (forall j, (2 <= j < 6)%nat -> P i j = P i' j) -> P i 0%nat <= P i' 0%nat -> P i' 1%nat <= P i 1%nat ->
     (P i 0%nat < P i' 0%nat \/ P i' 1%nat < P i 1%nat) -> F.[i', 0%nat] < F.[i, 0%nat]).
Proof.
  intros M P. destruct (circuit_value M P) as (F & F1 & F2 & F3). exists F. split; [exact F1|]. split; [exact F2|]. split.
  - intros i Hi V p Hw. unfold V. rewrite F3 by auto. fold p. split.
    + unfold circuit_row, midpoint_voltage. cbv zeta. f_equal. rewrite (Rmult_comm (p 3%nat)). reflexivity.
    + unfold within, circuit_box in Hw. cbn [List.length] in Hw.
      pose proof (Hw 0%nat ltac:(lia)) as H0. pose proof (Hw 1%nat ltac:(lia)) as H1. pose proof (Hw 2%nat ltac:(lia)) as H2.
      pose proof (Hw 3%nat ltac:(lia)) as H3. pose proof (Hw 4%nat ltac:(lia)) as H4. pose proof (Hw 5%nat ltac:(lia)) as H5.
      cbn [nth fst snd] in H0, H1, H2, H3, H4, H5. unfold circuit_row. cbv zeta.
      set (a := p 0%nat) in *. set (b := p 1%nat) in *. set (c := p 2%nat) in *. set (d := p 3%nat) in *. set (e := p 4%nat) in *. set (g := p 5%nat) in *.
      assert (Hg : 0 < g * (e + 9)) by (apply Rmult_lt_0_compat; lra).
      assert (Hv : 0 < 12 * b / (a + b)) by (apply Rdiv_lt_0_compat; lra).
      assert (T1 : 0 < (12 * b / (a + b) + 74 / 100) * g * (e + 9) / (g * (e + 9) + c)).
      { apply Rdiv_lt_0_compat; [|lra]. rewrite Rmult_assoc. apply Rmult_lt_0_compat; lra. }
      assert (T2 : 0 < 1135 / 100 * c / (g * (e + 9) + c)) by (apply Rdiv_lt_0_compat; lra).
      assert (T3 : 0 < 74 / 100 * c * g * (e + 9) / (d * (g * (e + 9) + c))).
      { apply Rdiv_lt_0_compat; [|apply Rmult_lt_0_compat; lra]. rewrite Rmult_assoc. apply Rmult_lt_0_compat; lra. }
      lra.
  - intros i i' Hi Hi' Hw Hw' He H0 H1 Hs. rewrite !F3 by auto. unfold circuit_row. cbv zeta.
    rewrite <- !(He 2%nat), <- !(He 3%nat), <- !(He 4%nat), <- !(He 5%nat) by lia.
    unfold within, circuit_box in Hw, Hw'. cbn [List.length] in Hw, Hw'.
    pose proof (Hw 0%nat ltac:(lia)) as A0. pose proof (Hw 1%nat ltac:(lia)) as A1. pose proof (Hw 2%nat ltac:(lia)) as A2.
    pose proof (Hw 4%nat ltac:(lia)) as A4. pose proof (Hw 5%nat ltac:(lia)) as A5.
    pose proof (Hw' 0%nat ltac:(lia)) as B0. pose proof (Hw' 1%nat ltac:(lia)) as B1. cbn [nth fst snd] in *.
    set (a := P i 0%nat) in *. set (b := P i 1%nat) in *. set (a' := P i' 0%nat) in *. set (b' := P i' 1%nat) in *.
    set (c := P i 2%nat) in *. set (e := P i 4%nat) in *. set (g := P i 5%nat) in *.
    assert (Hg : 0 < g * (e + 9)) by (apply Rmult_lt_0_compat; lra).
    assert (L : 12 * b' / (a' + b') < 12 * b / (a + b)).
    { apply (Rmult_lt_reg_r ((a' + b') * (a + b))); [apply Rmult_lt_0_compat; lra|].
      replace (12 * b' / (a' + b') * ((a' + b') * (a + b))) with (12 * b' * (a + b)) by (field; lra).
      replace (12 * b / (a + b) * ((a' + b') * (a + b))) with (12 * b * (a' + b')) by (field; lra).
      assert (b' * a < b * a'); [|nra]. destruct Hs; nra. }
    assert (K : (12 * b' / (a' + b') + 74 / 100) * g * (e + 9) / (g * (e + 9) + c) < (12 * b / (a + b) + 74 / 100) * g * (e + 9) / (g * (e + 9) + c)).
    { unfold Rdiv. apply Rmult_lt_compat_r; [apply Rinv_0_lt_compat; lra|]. rewrite !(Rmult_assoc _ g). apply Rmult_lt_compat_r; [lra|]. lra. }
    lra.
Qed.
Print Assumptions C70_circuit.

(** ** The piston *)
Definition piston_box : list (R * R) := [(30, 60); (1/200, 1/50); (1/500, 1/100); (1000, 5000); (90000, 110000); (290, 296); (340, 360)].
(** V is the gas volume at equilibrium; the cycle time is that of a spring *)
Definition cycle_time (V M S V0 k P0 Ta T0 : R) : R := 2 * PI * sqrt (M / (k + S ^ 2 * (P0 * V0 / T0) * (Ta / V ^ 2))).

Lemma piston_value : forall M P, exists F, piston (scaled piston_box M P) = Ok F /\ shape F = [M; 1%nat] /\
  forall i, (i < M)%nat -> F.[i, 0%nat] = piston_row (P i).
Proof.
  intros M P. apply (col_value piston piston_row piston_xl piston_xu).
  - reflexivity.
  - unfold piston_xl, piston_box. cbn [map fst]. repeat (f_equal; try lra).
  - unfold piston_xu, piston_box. cbn [map snd]. repeat (f_equal; try lra).
  - unfold piston_box. box_ok.
  - unfold piston_row, piston_box. row_ext.
Qed.

(** The volume V is the positive root of k V^2 / S^2 + A V / S = P0 V0 Ta / T0:
    the force of the gas, P0 V0 Ta / (T0 V) S, balances the weight, the
    outside pressure and the spring. *)
Theorem C70_piston : forall M P, exists F, piston (scaled piston_box M P) = Ok F /\ shape F = [M; 1%nat] /\
  forall i, (i < M)%nat -> let p := P i in within piston_box p ->
    exists V, 0 < V /\
      (let M0 := p 0%nat in let S := p 1%nat in let V0 := p 2%nat in let k := p 3%nat in let P0 := p 4%nat in let Ta := p 5%nat in let T0 := p 6%nat in
       P0 * V0 * Ta / (T0 * V) * S = P0 * S + 1962/100 * M0 + k * (V - V0) / S /\
       F.[i, 0%nat] = cycle_time V M0 S V0 k P0 Ta T0 /\ 0 < F.[i, 0%nat]).
Proof.
  intros M P. destruct (piston_value M P) as (F & F1 & F2 & F3). exists F. split; [exact F1|]. split; [exact F2|].
  intros i Hi p Hw. rewrite F3 by auto. fold p. unfold within, piston_box in Hw. cbn [List.length] in Hw.
  pose proof (Hw 0%nat ltac:(lia)) as H0. pose proof (Hw 1%nat ltac:(lia)) as H1. pose proof (Hw 2%nat ltac:(lia)) as H2.
  pose proof (Hw 3%nat ltac:(lia)) as H3. pose proof (Hw 4%nat ltac:(lia)) as H4. pose proof (Hw 5%nat ltac:(lia)) as H5.
  pose proof (Hw 6%nat ltac:(lia)) as H6. cbn [nth fst snd] in *. unfold piston_row. cbv zeta.
  set (m := p 0%nat) in *. set (s := p 1%nat) in *. set (v := p 2%nat) in *. set (k := p 3%nat) in *. set (q := p 4%nat) in *.
  set (ta := p 5%nat) in *. set (t := p 6%nat) in *.
  set (A := q * s + 1962 / 100 * m - k * v / s). set (D := 4 * k * q * v * ta / t).
  assert (Kq : 0 < k * q) by (apply Rmult_lt_0_compat; lra). assert (Kv : 0 < v * ta) by (apply Rmult_lt_0_compat; lra).
  assert (HD : 0 < D).
  { unfold D. apply Rdiv_lt_0_compat; [|lra]. replace (4 * k * q * v * ta) with (4 * ((k * q) * (v * ta))) by ring.
    apply Rmult_lt_0_compat; [lra|]. now apply Rmult_lt_0_compat. }
  assert (HS : sqrt (A ^ 2 + D) * sqrt (A ^ 2 + D) = A ^ 2 + D) by (apply sqrt_sqrt; pose proof (pow2_ge_0 A); lra).
  assert (HR : 0 <= sqrt (A ^ 2 + D)) by apply sqrt_pos.
  assert (HA : A < sqrt (A ^ 2 + D)). { set (r := sqrt (A ^ 2 + D)) in *. apply Rnot_le_lt. intros C. assert (r * r <= A * A) by (apply Rmult_le_compat; lra). replace (A ^ 2) with (A * A) in HS by ring. lra. }
  set (V := s / (2 * k) * (- A + sqrt (A ^ 2 + D))).
  assert (HV : 0 < V) by (apply Rmult_lt_0_compat; [apply Rdiv_lt_0_compat; lra|lra]).
  exists V. split; [exact HV|].
  assert (Q : k * V * V + A * s * V = q * v * ta / t * s * s).
  { assert (E : 2 * k * V = s * (- A + sqrt (A ^ 2 + D))) by (unfold V; field; lra).
    set (r := sqrt (A ^ 2 + D)) in *.
    assert (E2 : 4 * k * (k * V * V + A * s * V) = s * s * D).
    { replace (4 * k * (k * V * V + A * s * V)) with ((2 * k * V) * (2 * k * V) + 2 * A * s * (2 * k * V)) by ring. rewrite E.
      replace (s * (- A + r) * (s * (- A + r)) + 2 * A * s * (s * (- A + r))) with (s * s * (r * r - A ^ 2)) by ring. rewrite HS. ring. }
    apply (Rmult_eq_reg_l (4 * k)); [|lra]. rewrite E2. unfold D. field. lra. }
  split.
  { apply (Rmult_eq_reg_r (V * s)); [|nra].
    replace (q * v * ta / (t * V) * s * (V * s)) with (q * v * ta / t * s * s) by (field; lra). rewrite <- Q. unfold A. field. lra. }
  assert (N : k + s ^ 2 * q * v * ta / (t * V ^ 2) = k + s ^ 2 * (q * v / t) * (ta / V ^ 2)) by (field; lra).
  split.
  - unfold cycle_time. rewrite <- N. reflexivity.
  - apply Rmult_lt_0_compat; [pose proof PI_RGT_0; lra|]. apply sqrt_lt_R0. apply Rdiv_lt_0_compat; [lra|].
    apply Rplus_lt_0_compat; [lra|]. apply Rdiv_lt_0_compat.
    + replace (s ^ 2 * q * v * ta) with ((s * s) * q * (v * ta)) by ring. repeat apply Rmult_lt_0_compat; lra.
    + replace (t * V ^ 2) with (t * (V * V)) by ring. apply Rmult_lt_0_compat; [lra|]. apply Rmult_lt_0_compat; exact HV.
Qed.
Print Assumptions C70_piston.

(** ** The borehole *)
Definition bore_box : list (R * R) := [(63070, 115600); (990, 1110); (631/10, 116); (700, 820); (1120, 1680); (9855, 12045)].
(** inputs 0 and 1 are standard normal, the others uniform *)
Definition bore_points (M : nat) (P : nat -> nat -> R) : nd R :=
  mk2 M 8 (fun i j => if Nat.ltb j 2 then P i j else let (lo, hi) := nth (j - 2) bore_box (0, 1) in 2 * (P i j - lo) / (hi - lo) - 1).
Definition flow_rate (rw r Tu Hu Tl Hl L Kw : R) : R :=
  2 * PI * Tu * (Hu - Hl) / (ln (r / rw) * (1 + 2 * L * Tu / (ln (r / rw) * rw ^ 2 * Kw) + Tu / Tl)).

Theorem C70_borehole : forall M P, exists F, borehole (bore_points M P) = Ok F /\ shape F = [M; 1%nat] /\
  forall i, (i < M)%nat -> let p := P i in
    (* rw ~ N(0.10, 0.0161812), r ~ Lognormal(7.71, 1.0056) *)
    let rw := 1/10 + 161812/10000000 * p 0%nat in let r := exp (771/100 + 10056/10000 * p 1%nat) in
    within bore_box (fun j => p (j + 2)%nat) -> 0 < rw < r ->
    F.[i, 0%nat] = flow_rate rw r (p 2%nat) (p 3%nat) (p 4%nat) (p 5%nat) (p 6%nat) (p 7%nat) /\ 0 < F.[i, 0%nat].
Proof.
  intros M P. destruct (bore_inputs_ok M (bore_points M P) eq_refl) as (Y & Y1 & Y2 & Y3).
  assert (YP : forall i j, (i < M)%nat -> (2 <= j < 8)%nat -> Y.[i, j] = P i j).
  { intros i j Hi Hj. rewrite Y3 by lia. unfold bore_points. rewrite at_mk2 by lia.
    destruct j as [|[|j]]; try lia. cbn [Nat.ltb Nat.leb Nat.sub]. rewrite Nat.sub_0_r.
    unfold bore_tr, affine_tr, bore_xl, bore_xu, bore_box. cbn [Nat.eqb Nat.sub]. rewrite ?Nat.sub_0_r.
    do 6 (destruct j as [|j]; [cbn [nth]; field|]). lia. }
  assert (Y0 : forall i, (i < M)%nat -> Y.[i, 0%nat] = 1/10 + 161812/10000000 * P i 0%nat).
  { intros i Hi. rewrite Y3 by lia. unfold bore_points. rewrite at_mk2 by lia. unfold bore_tr. cbn. lra. }
  assert (Y11 : forall i, (i < M)%nat -> Y.[i, 1%nat] = exp (771/100 + 10056/10000 * P i 1%nat)).
  { intros i Hi. rewrite Y3 by lia. unfold bore_points. rewrite at_mk2 by lia. unfold bore_tr. cbn [Nat.ltb Nat.leb Nat.eqb]. f_equal. lra. }
  unfold borehole. rewrite Y1. cbn [rbind]. eexists. split; [reflexivity|]. unfold value_col, nrows. rewrite Y2. split; [reflexivity|].
  intros i Hi. cbv zeta. set (p := P i). set (rw := 1/10 + 161812/10000000 * p 0%nat). set (r := exp (771/100 + 10056/10000 * p 1%nat)). intros Hw Hr. rewrite at_mk2 by (auto; lia). unfold borehole_row. rewrite Y0, Y11, !YP by lia. fold p. fold rw r.
  split; [reflexivity|]. unfold within, bore_box in Hw. cbn [List.length] in Hw.
  pose proof (Hw 0%nat ltac:(lia)) as H0. pose proof (Hw 1%nat ltac:(lia)) as H1. pose proof (Hw 2%nat ltac:(lia)) as H2.
  pose proof (Hw 3%nat ltac:(lia)) as H3. pose proof (Hw 4%nat ltac:(lia)) as H4. pose proof (Hw 5%nat ltac:(lia)) as H5. cbn [nth fst snd Nat.add] in *.
  set (a := p 2%nat) in *. set (b := p 3%nat) in *. set (c := p 4%nat) in *. set (d := p 5%nat) in *. set (e := p 6%nat) in *. set (g := p 7%nat) in *.
  pose proof PI_RGT_0 as PP.
  assert (HL : 0 < ln (r / rw)).
  { rewrite <- ln_1. apply ln_increasing; [lra|]. apply (Rmult_lt_reg_r rw); [lra|]. unfold Rdiv. rewrite Rmult_assoc, Rinv_l by lra. lra. }
  apply Rdiv_lt_0_compat.
  - replace (2 * PI * a * (b - d)) with ((PI * a) * (2 * (b - d))) by ring. apply Rmult_lt_0_compat; [apply Rmult_lt_0_compat; lra|lra].
  - apply Rmult_lt_0_compat; auto.
    assert (0 < 2 * e * a / (ln (r / rw) * rw ^ 2 * g)).
    { apply Rdiv_lt_0_compat; [apply Rmult_lt_0_compat; lra|]. apply Rmult_lt_0_compat; [|lra]. apply Rmult_lt_0_compat; auto. apply pow_lt. lra. }
    assert (0 < a / c) by (apply Rdiv_lt_0_compat; lra). lra.
Qed.
Print Assumptions C70_borehole.

(** ** The wing *)
Definition wing_box : list (R * R) := [(150, 200); (220, 300); (6, 10); (-10, 10); (16, 45); (1/2, 1); (2/25, 9/50); (5/2, 6); (1700, 2500); (1/40, 2/25)].
(** Lam in degrees *)
Definition wing_weight (Sw Wfw A Lam q lam tc Nz Wdg Wp : R) : R :=
  let c := cos (Lam * PI / 180) in
  36/1000 * Rpower Sw (758/1000) * Rpower Wfw (35/10000) * Rpower (A / c ^ 2) (6/10) * Rpower q (6/1000) * Rpower lam (4/100)
    * Rpower (100 * tc / c) (- (3/10)) * Rpower (Nz * Wdg) (49/100) + Sw * Wp.

Lemma Rpower_div : forall x y z, 0 < x -> 0 < y -> Rpower (x / y) z = Rpower x z * Rpower y (- z).
Proof.
  intros x y z Hx Hy. unfold Rpower, Rdiv. rewrite ln_mult, ln_Rinv by (auto; now apply Rinv_0_lt_compat).
  rewrite <- exp_plus. f_equal. ring.
Qed.
Lemma wing_formula : forall x, (forall j, (j < 9)%nat -> j <> 3%nat -> 0 < x j) -> 0 < cos (x 3%nat * PI / 180) ->
  wing_row x = wing_weight (x 0%nat) (x 1%nat) (x 2%nat) (x 3%nat) (x 4%nat) (x 5%nat) (x 6%nat) (x 7%nat) (x 8%nat) (x 9%nat).
Proof.
  intros x Hx Hc. unfold wing_row, wing_Q, wing_weight. cbv zeta. set (c := cos (x 3%nat * PI / 180)) in *.
  rewrite !fpow_pos by (try assumption; try lra; apply Hx; lia).
  assert (Hc2 : 0 < c ^ 2) by (apply pow_lt; auto).
  rewrite (Rpower_div (x 2%nat) (c ^ 2)) by (auto; apply Hx; lia). rewrite (Rpower_div (100 * x 6%nat) c) by (auto; pose proof (Hx 6%nat ltac:(lia) ltac:(lia)); lra).
  rewrite <- (Rpower_mult_distr 100 (x 6%nat)) by (try lra; apply Hx; lia).
  rewrite <- (Rpower_mult_distr (x 7%nat) (x 8%nat)) by (apply Hx; lia).
  replace (Rpower c (- (9/10))) with (Rpower (c ^ 2) (- (6 / 10)) * Rpower c (- - (3 / 10))).
  2: { unfold Rpower. rewrite <- exp_plus. f_equal. replace (c ^ 2) with (c * c) by ring. rewrite ln_mult by auto. field. }
  ring.
Qed.

Theorem C70_wing :
  (* the normalized version *)
  (forall M P, exists F, wing (scaled wing_box M P) = Ok F /\ shape F = [M; 1%nat] /\
     forall i, (i < M)%nat -> let p := P i in within wing_box p ->
       F.[i, 0%nat] = wing_weight (p 0%nat) (p 1%nat) (p 2%nat) (p 3%nat) (p 4%nat) (p 5%nat) (p 6%nat) (p 7%nat) (p 8%nat) (p 9%nat) /\ 0 < F.[i, 0%nat] /\
       (* the sweep angle counts by its size only *)
       forall i', (i' < M)%nat -> (forall j, (j < 10)%nat -> j <> 3%nat -> P i' j = p j) -> P i' 3%nat = - p 3%nat -> F.[i', 0%nat] = F.[i, 0%nat]) /\
  (* the tutorial's version takes the physical inputs *)
  (forall M X, shape X = [M; 10%nat] -> exists F, tut_wing X = Ok F /\ shape F = [M; 1%nat] /\
     forall i, (i < M)%nat -> let p := fun j => X.[i, j] in within wing_box p ->
       F.[i, 0%nat] = wing_weight (p 0%nat) (p 1%nat) (p 2%nat) (p 3%nat) (p 4%nat) (p 5%nat) (p 6%nat) (p 7%nat) (p 8%nat) (p 9%nat)).
Proof.
  assert (W : forall p, within wing_box p -> (forall j, (j < 10)%nat -> j <> 3%nat -> 0 < p j) /\ 0 < cos (p 3%nat * PI / 180)).
  { intros p Hw. unfold within, wing_box in Hw. cbn [List.length] in Hw. split.
    - intros j Hj Hn. specialize (Hw j Hj). do 10 (destruct j as [|j]; [cbn [nth fst snd] in Hw; try lia; lra|]). lia.
    - specialize (Hw 3%nat ltac:(lia)). cbn [nth fst snd] in Hw. pose proof PI_RGT_0. apply cos_gt_0; nra. }
  split.
  - intros M P. destruct (col_value wing wing_row wing_xl wing_xu wing_box M P) as (F & F1 & F2 & F3).
    + reflexivity.
    + unfold wing_xl, wing_box. cbn [map fst]. repeat (f_equal; try lra).
    + unfold wing_xu, wing_box. cbn [map snd]. repeat (f_equal; try lra).
    + unfold wing_box. box_ok.
    + unfold wing_row, wing_Q, wing_box. row_ext.
    + exists F. split; [exact F1|]. split; [exact F2|]. intros i Hi p Hw. destruct (W p Hw) as [Wp Wc]. rewrite F3 by auto. fold p.
      assert (Fp : wing_row p = wing_weight (p 0%nat) (p 1%nat) (p 2%nat) (p 3%nat) (p 4%nat) (p 5%nat) (p 6%nat) (p 7%nat) (p 8%nat) (p 9%nat)).
      { apply wing_formula; [intros j Hj Hn; apply Wp; [lia|exact Hn]|exact Wc]. }
      split; [exact Fp|]. split.
      * unfold wing_row, wing_Q. cbv zeta. pose proof (Wp 0%nat ltac:(lia) ltac:(lia)). pose proof (Wp 9%nat ltac:(lia) ltac:(lia)).
        apply Rplus_lt_0_compat; [|now apply Rmult_lt_0_compat].
        do 10 (apply Rmult_lt_0_compat; [|apply fpow_gt0; first [assumption|apply Wp; lia|lra]]). lra.
      * intros i' Hi' He He3. rewrite F3 by auto. unfold wing_row, wing_Q. rewrite He3, !(He 0%nat), !(He 1%nat), !(He 2%nat), !(He 4%nat), !(He 5%nat), !(He 6%nat), !(He 7%nat), !(He 8%nat), !(He 9%nat) by lia.
        replace (- p 3%nat * PI / 180) with (- (p 3%nat * PI / 180)) by (unfold Rdiv; ring). rewrite cos_neg. reflexivity.
  - intros M X HX. unfold tut_wing, np_atleast_2d. rewrite HX. destruct (ten_ok M X HX) as (Y & Y1 & Y2 & Y3). rewrite Y1. cbn [rbind].
    eexists. split; [reflexivity|]. unfold value_col, nrows. rewrite Y2. split; [reflexivity|]. intros i Hi. cbv zeta. set (p := fun j => X.[i, j]). intros Hw. destruct (W p Hw) as [Wp Wc].
    rewrite at_mk2 by (auto; lia). transitivity (wing_row p).
    + unfold wing_row, wing_Q. rewrite !Y3 by lia. reflexivity.
    + apply wing_formula; [intros j Hj Hn; apply Wp; [lia|exact Hn]|exact Wc].
Qed.
Print Assumptions C70_wing.

(** ** The robot arm *)
Definition robot_box : list (R * R) := [(0, 2 * PI); (0, 2 * PI); (0, 2 * PI); (0, 2 * PI); (0, 1); (0, 1); (0, 1); (0, 1)].
(** four segments of length L_k; segment k is turned by theta_k against the one before *)
Definition arm_x (th L : nat -> R) : R := sumf 4 (fun k => L k * cos (sumf (S k) th)).
Definition arm_y (th L : nat -> R) : R := sumf 4 (fun k => L k * sin (sumf (S k) th)).

Lemma robot_value : forall M P, exists F, robot (scaled robot_box M P) = Ok F /\ shape F = [M; 1%nat] /\
  forall i, (i < M)%nat -> F.[i, 0%nat] = robot_row (P i).
Proof.
  intros M P. pose proof PI_RGT_0 as PP. apply (col_value robot robot_row robot_xl robot_xu).
  - reflexivity.
  - reflexivity.
  - reflexivity.
  - unfold robot_box. box_ok.
  - unfold robot_row, robot_u, robot_v, robot_box. row_ext.
Qed.
Lemma robot_sqrt : forall x, robot_row x = sqrt (robot_u x ^ 2 + robot_v x ^ 2).
Proof.
  intros x. unfold robot_row, fpow. set (q := robot_u x ^ 2 + robot_v x ^ 2).
  assert (Hq : 0 <= q) by (unfold q; pose proof (pow2_ge_0 (robot_u x)); pose proof (pow2_ge_0 (robot_v x)); lra).
  destruct (Rlt_dec 0 q) as [H|H].
  - replace (5/10) with (/ 2) by lra. now apply Rpower_sqrt.
  - replace q with 0 by lra. now rewrite sqrt_0.
Qed.
Lemma turn : forall a b al, (cos al * a - sin al * b) ^ 2 + (sin al * a + cos al * b) ^ 2 = a ^ 2 + b ^ 2.
Proof. intros a b al. pose proof (sin2_cos2 al) as H. unfold Rsqr in H. 
  replace ((cos al * a - sin al * b) ^ 2 + (sin al * a + cos al * b) ^ 2) with ((sin al * sin al + cos al * cos al) * (a ^ 2 + b ^ 2)) by ring. rewrite H. ring. Qed.
Lemma unit_reach : forall u v l c s, s * s + c * c = 1 -> 0 <= l -> forall r, 0 <= r -> u ^ 2 + v ^ 2 <= r ^ 2 ->
  (u + l * c) ^ 2 + (v + l * s) ^ 2 <= (r + l) ^ 2.
Proof.
  intros u v l c s H Hl r Hr Hu.
  assert (K : u * c + v * s <= r).
  { apply Rnot_lt_le. intros C. assert (r * r < (u * c + v * s) * (u * c + v * s)) by (apply Rmult_le_0_lt_compat; lra).
    assert ((u * c + v * s) * (u * c + v * s) + (u * s - v * c) * (u * s - v * c) = u ^ 2 + v ^ 2).
    { replace ((u * c + v * s) * (u * c + v * s) + (u * s - v * c) * (u * s - v * c)) with ((s * s + c * c) * (u ^ 2 + v ^ 2)) by ring. rewrite H. ring. }
    pose proof (Rle_0_sqr (u * s - v * c)) as Q. unfold Rsqr in Q. replace (r ^ 2) with (r * r) in Hu by ring. lra. }
  replace ((u + l * c) ^ 2 + (v + l * s) ^ 2) with (u ^ 2 + v ^ 2 + 2 * l * (u * c + v * s) + (s * s + c * c) * (l * l)) by ring. rewrite H.
  replace ((r + l) ^ 2) with (r ^ 2 + 2 * l * r + l * l) by ring.
  assert (2 * l * (u * c + v * s) <= 2 * l * r) by (apply Rmult_le_compat_l; lra). lra.
Qed.

Theorem C70_robot : forall M P, exists F, robot (scaled robot_box M P) = Ok F /\ shape F = [M; 1%nat] /\
  forall i, (i < M)%nat -> let th := fun k => P i k in let L := fun k => P i (4 + k)%nat in
    (* the distance of the end of the arm from its base *)
    F.[i, 0%nat] = sqrt (arm_x th L ^ 2 + arm_y th L ^ 2) /\ 0 <= F.[i, 0%nat] /\
    (* turning the whole arm changes nothing *)
    (forall i', (i' < M)%nat -> (forall j, (1 <= j < 8)%nat -> P i' j = P i j) -> F.[i', 0%nat] = F.[i, 0%nat]) /\
    (* it reaches no further than its length, and that far when straight *)
    ((forall k, (k < 4)%nat -> 0 <= L k) -> F.[i, 0%nat] <= sumf 4 L /\
       ((forall k, (1 <= k < 4)%nat -> th k = 0) -> F.[i, 0%nat] = sumf 4 L)).
Proof.
  intros M P. destruct (robot_value M P) as (F & F1 & F2 & F3). exists F. split; [exact F1|]. split; [exact F2|].
  intros i Hi th L. rewrite F3 by auto.
  assert (EU : forall p, robot_u p = arm_x (fun k => p k) (fun k => p (4 + k)%nat)).
  { intros p. unfold robot_u, arm_x. cbn [sumf Nat.add]. rewrite !Rplus_0_l. reflexivity. }
  assert (EV : forall p, robot_v p = arm_y (fun k => p k) (fun k => p (4 + k)%nat)).
  { intros p. unfold robot_v, arm_y. cbn [sumf Nat.add]. rewrite !Rplus_0_l. reflexivity. }
  assert (E : robot_row (P i) = sqrt (arm_x th L ^ 2 + arm_y th L ^ 2)) by (rewrite robot_sqrt, EU, EV; reflexivity).
  split; [exact E|]. split; [rewrite E; apply sqrt_pos|]. split.
  - intros i' Hi' He. rewrite F3 by auto. rewrite !robot_sqrt. f_equal. unfold robot_u, robot_v. rewrite !(He 1%nat), !(He 2%nat), !(He 3%nat), !(He 4%nat), !(He 5%nat), !(He 6%nat), !(He 7%nat) by lia.
    set (t := P i' 0%nat). set (t0 := P i 0%nat). set (t2 := P i 1%nat). set (t3 := P i 2%nat). set (t4 := P i 3%nat).
    set (l1 := P i 4%nat). set (l2 := P i 5%nat). set (l3 := P i 6%nat). set (l4 := P i 7%nat).
    transitivity ((l1 * 1 + l2 * cos t2 + l3 * cos (t2 + t3) + l4 * cos (t2 + t3 + t4)) ^ 2
                  + (l1 * 0 + l2 * sin t2 + l3 * sin (t2 + t3) + l4 * sin (t2 + t3 + t4)) ^ 2).
    + etransitivity; [|apply (turn _ _ t)]. replace (t + t2 + t3 + t4) with (t + (t2 + t3 + t4)) by ring. replace (t + t2 + t3) with (t + (t2 + t3)) by ring.
      rewrite !(cos_plus t), !(sin_plus t). ring.
    + symmetry. etransitivity; [|apply (turn _ _ t0)]. replace (t0 + t2 + t3 + t4) with (t0 + (t2 + t3 + t4)) by ring. replace (t0 + t2 + t3) with (t0 + (t2 + t3)) by ring.
      rewrite !(cos_plus t0), !(sin_plus t0). ring.
  - intros HL.
    assert (L0 : 0 <= L 0%nat) by (apply HL; lia). assert (L1 : 0 <= L 1%nat) by (apply HL; lia).
    assert (L2 : 0 <= L 2%nat) by (apply HL; lia). assert (L3 : 0 <= L 3%nat) by (apply HL; lia).
    assert (SL : 0 <= sumf 4 L) by (cbn [sumf]; lra).
    assert (SC : forall a, sin a * sin a + cos a * cos a = 1) by (intros a; pose proof (sin2_cos2 a) as H; exact H).
    split.
    + rewrite E. rewrite <- (sqrt_Rsqr (sumf 4 L)) by exact SL. apply sqrt_le_1_alt. unfold Rsqr.
      unfold arm_x, arm_y. cbn [sumf]. rewrite !Rplus_0_l.
      pose proof (unit_reach 0 0 (L 0%nat) (cos (th 0%nat)) (sin (th 0%nat)) (SC _) L0 0 ltac:(lra) ltac:(right; ring)) as A0.
      rewrite !Rplus_0_l in A0.
      pose proof (unit_reach _ _ (L 1%nat) (cos (th 0%nat + th 1%nat)) (sin (th 0%nat + th 1%nat)) (SC _) L1 (L 0%nat) L0 A0) as A1.
      pose proof (unit_reach _ _ (L 2%nat) (cos (th 0%nat + th 1%nat + th 2%nat)) (sin (th 0%nat + th 1%nat + th 2%nat)) (SC _) L2 (L 0%nat + L 1%nat) ltac:(lra) A1) as A2.
      pose proof (unit_reach _ _ (L 3%nat) (cos (th 0%nat + th 1%nat + th 2%nat + th 3%nat)) (sin (th 0%nat + th 1%nat + th 2%nat + th 3%nat)) (SC _) L3 (L 0%nat + L 1%nat + L 2%nat) ltac:(lra) A2) as A3.
      eapply Rle_trans; [exact A3|]. right. ring.
    + intros Hs. rewrite E. unfold arm_x, arm_y. cbn [sumf]. rewrite !Rplus_0_l. rewrite !(Hs 1%nat), !(Hs 2%nat), !(Hs 3%nat) by lia. rewrite !Rplus_0_r.
      replace ((L 0%nat * cos (th 0%nat) + L 1%nat * cos (th 0%nat) + L 2%nat * cos (th 0%nat) + L 3%nat * cos (th 0%nat)) ^ 2
        + (L 0%nat * sin (th 0%nat) + L 1%nat * sin (th 0%nat) + L 2%nat * sin (th 0%nat) + L 3%nat * sin (th 0%nat)) ^ 2)
        with ((sin (th 0%nat) * sin (th 0%nat) + cos (th 0%nat) * cos (th 0%nat)) * (sumf 4 L * sumf 4 L)) by (cbn [sumf]; ring).
      rewrite SC, Rmult_1_l. fold (Rsqr (sumf 4 L)). rewrite sqrt_Rsqr by exact SL. cbn [sumf]. ring.
Qed.
Print Assumptions C70_robot.

(** the arm of four unit segments, straight *)
Example C70_case : exists F, robot (scaled robot_box 1 (fun _ j => if Nat.ltb j 4 then 0 else 1)) = Ok F /\ F.[0%nat, 0%nat] = 4.
Proof.
  destruct (C70_robot 1 (fun _ j => if Nat.ltb j 4 then 0 else 1)) as (F & F1 & F2 & F3). exists F. split; [exact F1|].
  destruct (F3 0%nat ltac:(lia)) as (_ & _ & _ & H). destruct H as [_ H].
  - intros k Hk. do 4 (destruct k as [|k]; [cbn; lra|]). lia.
  - rewrite H; [cbn; lra|]. intros k Hk. do 4 (destruct k as [|k]; [cbn; lra || lia|]). lia.
Qed.
