(** Final theorems for optimizers.py, continued: C48 (minimize) *)
From Coq Require Import String Reals Lra Lia List Arith ZArith Bool Classical.
From Verif Require Import Prelude Py NumArr Toy Lsq SolveRef M_Misc M_RespSurf M_Gradients M_Subspaces M_QP M_Domains M_Designs M_ASRS M_Optimizers
  P_Misc P_QP P_Rbf P_Poly P_PolyFacts P_PolyTrain P_DomSample P_Domains P_Multistart P_Optimizers Properties_RespSurf Properties_QP Properties_Domains Properties_Designs Properties_ASRS
  Properties_Optimizers Properties_MinMap.
Import ListNotations.
Open Scope R_scope.

(** ** Contracts *)
(** a successful answer of minimize to a problem with objective g in n
    variables: the point, and the value of g there *)
Definition reports (mn : mprob -> res mres) (g : nd R -> res R) (n : nat) : Prop :=
  forall P r, mp_fun P = g -> mn P = Ok r -> mr_success r = true -> exists x, mr_x r = XArr x /\ shape x = [n] /\ g x = Ok (mr_fun r).
Definition fmin_reports (fm : (R -> res R) -> R -> R -> res (R * R * bool)) : Prop :=
  forall g a b y v, fm g a b = Ok (y, v, false) -> g y = Ok v.
(** successful answers to quadratic programs in k variables are feasible *)
Definition qp_feasible (mn : mprob -> res mres) (k : nat) : Prop :=
  forall P c Q, (forall x, mp_fun P (mk1 k x) = Ok (quad_obj c Q k x)) -> forall r, mn P = Ok r -> mr_success r = true -> xdim (mr_x r) k /\ mp_feas P k (xpoint (mr_x r)).
Definition gurobi_feasible (gu : gmodel -> res (option (list R))) : Prop :=
  forall P l, gu P = Ok (Some l) -> List.length l = List.length (gm_vars P) /\ gm_feas P (fun j => nth j l 0).

Section QPFeasible.
  Context {G : gen} {U L : Type} (B : backend).
  Notation W := (world G U L).
  Lemma qp_answer_feasible : forall m n c Q A b (w w' : W) z, qp_feasible (sp_minimize B) n -> gurobi_feasible (gurobi B) ->
    shape c = [n; 1%nat] -> shape Q = [n; n] -> shape A = [m; n] -> shape b = [m; 1%nat] ->
    quadratic_program_ineq B (qp_init B "GUROBI") c Q A b w = (Ok z, w') -> doc_ineq A b m n (fun j => z.[j, 0%nat]) /\ w' = w.
  Proof.
    intros m n c Q A b w w' z HM HG Sc SQ SA Sb H.
    assert (K : qp_init B "GUROBI" = "SCIPY"%string \/ qp_init B "GUROBI" = "GUROBI"%string).
    { unfold qp_init. destruct (_ && _)%bool; auto. }
    destruct (C51_quadratic_program_ineq_posed (G := G) (U := U) (L := L) B m n c Q A b Sc SQ SA Sb) as [(P3 & F3 & O3 & _ & _ & _ & R3) (P4 & W4 & F4 & O4 & R4)].
    destruct K as [K|K]; rewrite K in H.
    - clear P4 W4 F4 O4 R4. rewrite R3 in H. unfold mp_outcome in H. destruct (sp_minimize B P3) as [r|e] eqn:E; [|discriminate]. destruct (mr_success r) eqn:Es; [|discriminate].
      destruct (HM P3 c Q O3 r E Es) as (Sx & Fx).
      assert (KK : exists z', reshape [n; 1%nat] (as_array (mr_x r)) = Ok z' /\ forall j, (j < n)%nat -> z'.[j, 0%nat] = xpoint (mr_x r) j).
      { destruct (mr_x r) as [v|v]; simpl in Sx |- *; [destruct (flat_col v n Sx) as (z' & ? & _ & ?); eauto|]. subst n. exists (mk2 1 1 (fun _ _ => v)). split; reflexivity. }
      destruct KK as (z' & Ez & Vz). rewrite Ez in H. injection H as <- <-. split; [|reflexivity].
      apply F3 in Fx. eapply doc_ineq_ext; [|exact Fx]. intros j Hj. symmetry. now apply Vz.
    - rewrite R4 in H. unfold gm_outcome in H. destruct (gurobi B P4) as [[l|]|e] eqn:E; try discriminate. destruct (HG P4 l E) as (Sx & Fx). rewrite W4 in Sx.
      destruct (flat_col (vec_of l) n) as (z' & Ez & Sz & Vz); [unfold vec_of; simpl; now rewrite Sx|]. rewrite Ez in H. injection H as <- <-. split; [|reflexivity].
      apply F4 in Fx. eapply doc_ineq_ext; [|exact Fx]. intros j Hj. symmetry. rewrite Vz by auto. reflexivity.
  Qed.
End QPFeasible.

Lemma row1_eq : forall (x : nd R) n, shape x = [n] -> exists Y, reshape [1%nat; size x] x = Ok Y /\ shape Y = [1%nat; n].
Proof.
  intros x n Sx. destruct (reshape_ok R [1%nat; size x] x) as (Y & EY & SY & _); [simpl; lia|]. exists Y. split; [exact EY|]. rewrite SY. unfold size. rewrite Sx. simpl. now rewrite Nat.mul_1_r.
Qed.

(** the active minimiser: its shape, and the surface takes the value fstar there *)
Definition attained (s : asrs) (Y : nd R) (v : R) : Prop := exists F o, predict_av s Y false = Ok (F, o) /\ get2 F 0 0 = Ok v.
Lemma attained_ext : forall s n Y Y' v, entrywise (rs_predict (as_rs s)) n -> shape Y = [1%nat; n] -> Y === Y' -> attained s Y v -> attained s Y' v.
Proof.
  intros s n Y Y' v HE SY E (F & o & EF & EG). pose proof (HE Y Y' 1%nat false SY E) as SR. unfold predict_av in *. rewrite EF in SR. unfold attained, predict_av.
  assert (K : forall F', F === F' -> get2 F' 0 0 = Ok v).
  { intros F' [S1 V1]. unfold get2 in *. rewrite <- S1. destruct (shape F) as [|a [|b [|]]]; try discriminate. destruct (Nat.ltb 0 a && Nat.ltb 0 b)%bool eqn:C; [|discriminate].
    apply andb_prop in C. destruct C as [C1 C2]. apply Nat.ltb_lt in C1, C2. rewrite <- V1; [exact EG|]. repeat constructor; auto. }
  destruct (rs_predict (as_rs s) Y' false) as [[F' o']|e]; destruct o as [D|]; cbn in SR; try contradiction; destruct o' as [D'|]; try contradiction.
  - exists F', (Some D'). split; [reflexivity|]. apply K. apply SR.
  - exists F', None. split; [reflexivity|]. apply K. exact SR.
Qed.

Lemma av_minimize_point : forall (G : gen) (U L : Type) B fminbound s m n Wm W1 W2 dg (w w' : world G U L) ystar fstar,
  let d := av_domain (as_map s) in
  frame (d_subs d) m n Wm W1 W2 -> entrywise (rs_predict (as_rs s)) n -> reports (sp_minimize B) (avfun_of s) n -> fmin_reports fminbound ->
  av_minimize B fminbound (avfun_of s) d dg w = (Ok (ystar, fstar), w') -> w' = w /\ shape ystar = [1%nat; n] /\ attained s ystar fstar.
Proof.
  intros G U L B fminbound s m n Wm W1 W2 dg w w' ystar fstar d F HE HR HF H.
  assert (S2 : shape2 W1 = Ok (m, n)) by (unfold shape2; now rewrite (fr_s1 _ _ _ _ _ _ F)).
  unfold av_minimize in H. apply mbind_ok in H. destruct H as ([x fs] & w1 & E & H). apply mbind_ok in H. destruct H as (ys & w2 & E2 & H).
  apply mlift_inv in E2. destruct E2 as [E2 ->]. apply mret_inv in H. destruct H as [H ->]. injection H as -> ->.
  assert (T : forall sol msg, (forall y0 r, sol y0 = Ok r -> exists P, mp_fun P = avfun_of s /\ sp_minimize B P = Ok r) ->
    ten n sol msg w = (Ok (x, fs), w1) -> w1 = w /\ shape ys = [1%nat; n] /\ attained s ys fs).
  { intros sol msg HS ET. destruct (ten_run n sol msg w) as [(i & e & _ & _ & E0)|(_ & o & Bt & E0)]; rewrite E0 in ET; [discriminate|].
    destruct Bt as [[-> _]|(j & v & _ & -> & [Gv Gs] & _)]; [discriminate|]. cbn [unpack] in ET. injection ET as <- <- <-.
    destruct (HS _ _ Gv) as (P & EP & EM). destruct (HR P v EP EM Gs) as (x0 & Ex & Sx & Vx). rewrite Ex in E2. cbn [row_of] in E2. split; [reflexivity|].
    unfold avfun_of in Vx. rewrite E2 in Vx. cbn [rbind] in Vx. destruct (row1_eq x0 n Sx) as (Y & EY & SY). rewrite EY in E2. injection E2 as <-. split; [exact SY|].
    destruct (predict_av s Y false) as [[F0 o]|] eqn:EP0; [|discriminate]. cbn [rbind] in Vx. exists F0, o. auto. }
  destruct (d_kind d); [| |discriminate].
  - unfold unbounded_minimize in E. unfold mbind at 1, mlift at 1 in E. rewrite (fr_1 _ _ _ _ _ _ F) in E. cbn [need] in E. unfold mbind at 1, mlift at 1 in E. rewrite S2 in E.
    eapply T; [|exact E]. intros y0 r E0. eexists (MP _ _ _ _ _ _). split; [|exact E0]. reflexivity.
  - unfold mbind at 1, mlift at 1 in E. rewrite (fr_1 _ _ _ _ _ _ F) in E. cbn [need] in E. unfold mbind at 1, mlift at 1 in E. rewrite S2 in E.
    destruct (Nat.eqb_spec n 1) as [->|N].
    + apply mbind_ok in E. destruct E as ([y fv] & w3 & E & E3). apply mlift_inv in E. destruct E as [E ->]. apply mret_inv in E3. destruct E3 as [E3 ->]. injection E3 as -> ->. split; [reflexivity|].
      unfold interval_minimize in E. destruct (d_vertY d) as [V|]; [|discriminate]. destruct (get2 V 0 0) as [yl|]; [|discriminate]. destruct (get2 V 1 0) as [yu|]; [|discriminate]. cbn [rbind] in E.
      destruct (fminbound _ yl yu) as [[[y0 v0] fl]|] eqn:EF; [|discriminate]. cbn [rbind] in E. destruct fl; [discriminate|]. injection E as <- <-.
      apply HF in EF. cbn [row_of] in E2. change (size (mk2 1 1 (fun _ _ : nat => y0))) with 1%nat in E2. rewrite (reshape_same (mk2 1 1 (fun _ _ => y0)) [1%nat; 1%nat] eq_refl) in E2. injection E2 as <-. split; [reflexivity|].
      unfold avfun_of in EF. destruct (reshape_ok R [1%nat; size (ND [] (fun _ => y0))] (ND [] (fun _ => y0)) eq_refl) as (Y & EY & SY & VY). rewrite EY in EF. cbn [rbind] in EF.
      change (size (ND [] (fun _ : list nat => y0))) with 1%nat in SY.
      apply (attained_ext s 1 Y); [exact HE|exact SY| |].
      * split; [rewrite SY; reflexivity|]. intros ix Hi. rewrite VY by (rewrite SY in Hi; exact Hi). reflexivity.
      * destruct (predict_av s Y false) as [[F0 o]|] eqn:EP0; [|discriminate]. cbn [rbind] in EF. exists F0, o. auto.
    + unfold zonotope_minimize in E. unfold mbind at 1, mlift at 1 in E. rewrite (fr_1 _ _ _ _ _ _ F) in E. cbn [need] in E. unfold mbind at 1, mlift at 1 in E. rewrite S2 in E.
      eapply T; [|exact E]. intros y0 r E0. cbv beta in E0. destruct (d_cons d) as [cs|]; [|discriminate]. eexists (MP _ _ _ _ _ _). split; [|exact E0]. reflexivity.
Qed.

(** ** C48 *)
Theorem C48_minimize : forall (G : gen) (U L : Type) B lstsq solve fminbound s X f M m n Wm W1 W2 (w w' : world G U L) xstar fstar,
  lstsq_contract lstsq -> solve_sound solve -> fmin_reports fminbound ->
  reports (sp_minimize B) (avfun_of s) n -> qp_feasible (sp_minimize B) (m - n) -> gurobi_feasible (gurobi B) ->
  let d := av_domain (as_map s) in
  frame (d_subs d) m n Wm W1 W2 -> (1 <= m)%nat -> shape X = [M; m] -> shape f = [M; 1%nat] -> entrywise (rs_predict (as_rs s)) n ->
  opt_minimize B lstsq solve fminbound s X f w = (Ok (xstar, fstar), w') ->
  (* the world, including the random state, is as before *)
  w' = w /\
  exists ystar, av_minimize B fminbound (avfun_of s) d (Some (avdfun_of s)) w = (Ok (ystar, fstar), w) /\ shape ystar = [1%nat; n] /\
    (* W1^T xstar = ystar *)
    shape xstar = [1%nat; m] /\ (forall j, (j < n)%nat -> sumf m (fun i => xstar.[0%nat, i] * W1.[i, j]) = ystar.[0%nat, j]) /\
    (* the surface predicts fstar at xstar *)
    (exists F, asrs_predict s xstar false = Ok (F, None) /\ F.[0%nat, 0%nat] = fstar) /\
    (d_kind d = DBounded -> in_cube m (fun i => xstar.[0%nat, i])).
Proof.
  intros G U L B lstsq solve fminbound s X f M m n Wm W1 W2 w w' xstar fstar HL HS HF HR HQ HG d F Hm SX Sf HE H.
  unfold opt_minimize in H. fold d in H. unfold mbind at 1, mlift at 1 in H. rewrite (process_io_eq _ X f M m SX Sf) in H.
  assert (K : exists reg, (d_kind d = DUnbounded /\ reg = umvm_regularize solve d \/ d_kind d = DBounded /\ reg = bmvm_regularize B d) /\
    (dom (ystar, fstar) <- av_minimize B fminbound (avfun_of s) d (Some (avdfun_of s));
     dom v <- mlift (mvm_train lstsq d X f);
     dom (xstar, _) <- av_inverse_with d (reg v) ystar (IsA 1%Z);
     mret (xstar, fstar)) w = (Ok (xstar, fstar), w')).
  { destruct (d_kind d) eqn:ED; [| |discriminate]; eexists; (split; [|exact H]); tauto. }
  clear H. destruct K as (reg & HK & H).
  apply mbind_ok in H. destruct H as ([ys fs] & w1 & E1 & H).
  destruct (av_minimize_point G U L B fminbound s m n Wm W1 W2 _ w w1 ys fs F HE HR HF E1) as (-> & SY & AT).
  apply mbind_ok in H. destruct H as (v & w2 & E2 & H). apply mlift_inv in E2. destruct E2 as [E2 ->].
  apply mbind_ok in H. destruct H as ([xs ind] & w3 & E3 & H). apply mret_inv in H. destruct H as [H ->]. injection H as -> ->.
  destruct (mvm_train_spec lstsq d m n Wm W1 W2 X f M v HL F Hm SX Sf E2) as (pr & _ & Sb & SA & SQ & _).
  assert (KZ : exists Z, reg v ys 1%Z w = (Ok Z, w) /\ w3 = w /\ shape Z = [1%nat; (m - n)%nat; 1%nat] /\
    (d_kind d = DBounded -> in_cube m (xpt W1 W2 n (m - n) (fun j => ys.[0%nat, j]) (fun j => Z.[0%nat, j, 0%nat])))).
  { unfold av_inverse_with in E3. unfold mbind at 1, mlift at 1 in E3. rewrite (process_inputs_ok _ ys 1 n SY) in E3.
    apply mbind_ok in E3. destruct E3 as (Z & w4 & EZ & E3). apply mbind_ok in E3. destruct E3 as (Wx & w5 & EW & E3). apply mlift_inv in EW. destruct EW as [_ ->]. apply mlift_inv in E3. destruct E3 as [_ ->].
    exists Z. destruct HK as [[ED ->]|[ED ->]].
    - destruct (umvm_spec solve d m n Wm W1 W2 v ys 1 Z w _ HS F SY Sb SA SQ EZ) as (-> & SZ & _). split; [exact EZ|]. split; [reflexivity|]. split; [exact SZ|]. rewrite ED. discriminate.
    - destruct (bmvm_spec B d m n Wm W1 W2 v ys 1 Z w w4 (fun c A b z => doc_ineq A b (2 * m) (m - n) (fun j => z.[j, 0%nat])) F SY Sb SA) as (-> & SZ & VZ); [|exact EZ|].
      { intros c A b z wa wb Sc SAi Sbi EQ. exact (qp_answer_feasible B (2 * m) (m - n) c (mv_zAz v) A b wa wb z HQ HG Sc SQ SAi Sbi EQ). }
      split; [exact EZ|]. split; [reflexivity|]. split; [exact SZ|]. intros _.
      destruct (VZ 0%nat ltac:(lia)) as (c & A & b & z & _ & _ & _ & Ez & KK & _ & Hf).
      apply Hf. eapply doc_ineq_ext; [|exact KK]. intros j _. symmetry. apply Ez. }
  destruct KZ as (Z & EZ & -> & SZ & HC). split; [reflexivity|]. exists ys. split; [exact E1|]. split; [exact SY|].
  destruct (rotate_inverse (as_map s) m n 1 1 Wm W1 W2 ys Z F SY SZ) as (X' & ind' & ER & (SX' & _ & _ & Y' & Z' & EF & VY & _) & VX).
  assert (EX : X' = xs).
  { unfold av_inverse_with, mbind, mlift in E3. rewrite (process_inputs_ok _ ys 1 n SY), EZ, (fr_W _ _ _ _ _ _ F) in E3. cbn [need] in E3. rewrite ER in E3. congruence. }
  subst X'. split; [exact SX'|].
  destruct (C21_forward (as_map s) m n Wm W1 W2 xs 1 F SX') as (Y0 & Z0 & EF0 & SY0 & _ & VY0 & _).
  rewrite EF in EF0. injection EF0 as -> ->.
  assert (PR : forall j, (j < n)%nat -> sumf m (fun i => xs.[0%nat, i] * W1.[i, j]) = ys.[0%nat, j]).
  { intros j Hj. rewrite <- VY0 by auto. exact (VY 0%nat 0%nat j ltac:(lia) ltac:(lia) Hj). }
  split; [exact PR|]. split.
  - assert (EY : ys === Y0).
    { split; [now rewrite SY, SY0|]. intros ix Hi. rewrite SY in Hi. inversion Hi as [|i0 r0 t0 t1 Hi0 Ht]; subst. inversion Ht as [|j0 c0 t2 t3 Hj0 Ht2]; subst. inversion Ht2; subst.
      replace i0 with 0%nat by lia. symmetry. exact (VY 0%nat 0%nat j0 ltac:(lia) ltac:(lia) Hj0). }
    destruct (attained_ext s n ys Y0 fs HE SY EY AT) as (Fv & o & EP & EG). exists Fv. unfold asrs_predict. rewrite EF. cbn [rbind]. rewrite EP. cbn [rbind]. split; [reflexivity|].
    unfold get2 in EG. destruct (shape Fv) as [|a [|b [|]]]; try discriminate. destruct (_ && _)%bool; [|discriminate]. congruence.
  - intros ED i Hi. specialize (HC ED i Hi). unfold xpt in HC. pose proof (VX 0%nat 0%nat i ltac:(lia) ltac:(lia) Hi) as E. cbn [Nat.mul Nat.add] in E. rewrite E. exact HC.
Qed.
Print Assumptions C48_minimize.

(** the surface y^2 over the first of two inputs in the box, and the data
    z^2 - z: all hypotheses hold, minimize returns, with the value 0 *)
Definition s48 : asrs := ASRS (RSPoly 2 (Some {| pa_N := 2; pa_X := mat_of [[0]]; pa_f := mat_of [[0]]; pa_weights := mat_of [[0]; [0]; [1]];
    pa_Rsqr := Fin 1; pa_g := mat_of [[0]]; pa_H := None |})) (AVM MBounded (dom2 DBounded)).
Definition fmin0 (g : R -> res R) (a b : R) : res (R * R * bool) := match g 0 with Ok v => Ok (0, v, false) | Err e => Err e end.
Example C48_case : fmin_reports fmin0 /\ reports (sp_minimize (point_backend z50)) (avfun_of s48) 1 /\ qp_feasible (sp_minimize (point_backend z50)) (2 - 1) /\
  gurobi_feasible (gurobi (point_backend z50)) /\ frame (d_subs (av_domain (as_map s48))) 2 1 I2 I21 I22 /\ entrywise (rs_predict (as_rs s48)) 1 /\
  forall w : world toy_gen unit unit, exists xstar fstar, opt_minimize (point_backend z50) lstsq_ref solve_ref fmin0 s48 X38 (data2 (-1) 1) w = (Ok (xstar, fstar), w) /\ fstar = 0.
Proof.
  split. { intros g a b y v H. unfold fmin0 in H. destruct (g 0) eqn:E; [|discriminate]. injection H as <- <-. exact E. }
  split. { intros P r EP E S. change (sp_minimize (point_backend z50) P) with (point_min z50 P) in E. unfold point_min in E. injection E as <-. cbn [mr_x mr_fun].
    eexists. split; [reflexivity|]. split; [reflexivity|]. rewrite EP. 
    assert (K : exists v, avfun_of s48 (mk1 1 (fun _ => z50)) = Ok v) by (eexists; reflexivity). destruct K as (v & ->). reflexivity. }
  split. { intros P c Q _ r E S. destruct (point_min_ok z50 P r E S) as (A & A2 & _). split; assumption. }
  split. { intros P l H. discriminate. }
  split; [exact frame2|]. split; [apply poly_surface; [lia|reflexivity]|].
  intros w. destruct (data2_ready lstsq_ref (-1) 1 DBounded lstsq_ref_contract lstsq_ref_total) as (v & HT).
  unfold opt_minimize. unfold mbind at 1, mlift at 1. rewrite (process_io_eq _ X38 (data2 (-1) 1) 6 2 eq_refl eq_refl).
  change (av_domain (as_map s48)) with (dom2 DBounded). cbn [d_kind dom2]. unfold mbind at 1, mret at 1. change (AVD DBounded sub2 2 1 (Some (mat_of [[-1]; [1]])) (Some (mat_of [[-1; 0]; [1; 0]])) None None) with (dom2 DBounded).
  assert (EM : exists v0, av_minimize (point_backend z50) fmin0 (avfun_of s48) (dom2 DBounded) (Some (avdfun_of s48)) w = (Ok (mk2 1 1 (fun _ _ => 0), v0), w) /\ v0 = 0).
  { eexists. split; [reflexivity|]. cbn. ring. }
  destruct EM as (v0 & EM & V0). unfold mbind at 1. rewrite EM. unfold mbind at 1, mlift at 1. rewrite HT.
  destruct (point_run toy_gen unit unit lstsq_ref v w 0 lstsq_ref_contract HT ltac:(lra)) as (Z & EZ).
  destruct (data2_trained lstsq_ref (-1) 1 DBounded v lstsq_ref_contract HT) as (Sb & SA & _).
  assert (SZ : shape Z = [1%nat; 1%nat; 1%nat]).
  { destruct (bmvm_spec (point_backend z50) (dom2 DBounded) 2 1 I2 I21 I22 v (mk2 1 1 (fun _ _ => 0)) 1 Z w w (fun _ _ _ _ => True) frame2 eq_refl Sb SA) as (_ & SZ & _); [|exact EZ|exact SZ].
    intros c A b z wa wb Sc SAi Sbi EQ. split; [exact I|]. destruct (data2_trained lstsq_ref (-1) 1 DBounded v lstsq_ref_contract HT) as (_ & _ & SQ & _).
    refine (proj2 (qp_answer_feasible (point_backend z50) (2 * 2) 1 c (mv_zAz v) A b wa wb z _ _ Sc SQ SAi Sbi EQ)); [|intros P l H; discriminate].
    intros P c' Q _ r E S. destruct (point_min_ok z50 P r E S) as (A' & A2 & _). split; assumption. }
  destruct (C21_inverse toy_gen unit unit (AVM MBounded (dom2 DBounded)) 2 1 I2 I21 I22 (bmvm_regularize (point_backend z50) (dom2 DBounded) v) (mk2 1 1 (fun _ _ => 0)) Z 1 1 w w frame2 eq_refl EZ SZ) as (X & ind & EI & _).
  cbn [av_domain Z.of_nat] in EI. change (Z.of_nat 1) with 1%Z in EI. exists X, v0. unfold mbind at 1. change (Pos.of_succ_nat 0) with 1%positive in EI. rewrite EI. split; [reflexivity|exact V0].
Qed.
