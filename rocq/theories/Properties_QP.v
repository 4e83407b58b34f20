(** Final theorems for utils/qp_solver.py: C51, C52 *)
From Coq Require Import String Reals Lra Lia List Arith ZArith Bool.
From Verif Require Import Prelude Py NumArr Toy LPRef M_QP P_QP.
Import ListNotations.
Open Scope R_scope.

(** The documented programs, for x : nat -> R read at indices < n
    (utils/qp_solver.py 51-188, docstrings). *)
Definition doc_eq (A b lb ub : nd R) (m n : nat) (x : nat -> R) : Prop :=
  (forall i, (i < m)%nat -> sumf n (fun j => A.[i, j] * x j) = b.[i, 0%nat]) /\
  (forall j, (j < n)%nat -> lb.[j, 0%nat] <= x j <= ub.[j, 0%nat]).
Definition doc_ineq (A b : nd R) (m n : nat) (x : nat -> R) : Prop :=
  forall i, (i < m)%nat -> b.[i, 0%nat] <= sumf n (fun j => A.[i, j] * x j).
Definition doc_bnd (lb ub : nd R) (n : nat) (x : nat -> R) : Prop :=
  forall j, (j < n)%nat -> lb.[j, 0%nat] <= x j <= ub.[j, 0%nat].
Definition lin_obj (c : nd R) (n : nat) (x : nat -> R) : R := sumf n (fun j => c.[j, 0%nat] * x j).
Definition quad_obj (c Q : nd R) (n : nat) (x : nat -> R) : R :=
  sumf n (fun j => c.[j, 0%nat] * x j) + sumf n (fun i => sumf n (fun j => x i * Q.[i, j] * x j)).

(** z (an n-by-1 array) solves: minimise obj subject to feas *)
Definition solves (n : nat) (feas : (nat -> R) -> Prop) (obj : (nat -> R) -> R) (z : nd R) : Prop :=
  shape z = [n; 1%nat] /\ feas (fun j => z.[j, 0%nat]) /\ forall y, feas y -> obj (fun j => z.[j, 0%nat]) <= obj y.

(** a problem that depends only on the entries below n *)
Lemma quad_obj_alt : forall c Q n x, quad_obj c Q n x = sumf n (fun j => c.[j, 0%nat] * x j) + sumf n (fun i => sumf n (fun j => Q.[i, j] * x i * x j)).
Proof. intros. unfold quad_obj. f_equal. apply sumf_ext. intros i Hi. apply sumf_ext. intros; ring. Qed.

(** ** What is posed, and what happens with the answer; for every back end *)

Section Posed.
  Context {G : gen} {U L : Type}.
  Notation W := (world G U L).
  Variable B : backend.

  (** how an answer of linprog becomes the outcome *)
  Definition lp_outcome (P : lp) (n : nat) (w : W) : res (nd R) * W :=
    match linprog B P with
    | Err e => (Err e, w)
    | Ok (true, x) => (reshape [n; 1%nat] x, w)
    | Ok (false, _) => (Err (Exc "Scipy did not solve the LP. Blame Scipy."), dumped w)
    end.
  Definition mp_outcome (P : mprob) (n : nat) (w : W) : res (nd R) * W :=
    match sp_minimize B P with
    | Err e => (Err e, w)
    | Ok r => if mr_success r then (reshape [n; 1%nat] (as_array (mr_x r)), w)
              else (Err (Exc "Scipy did not solve the LP. Blame Scipy."), dumped w)
    end.
  Definition gm_outcome (P : gmodel) (n : nat) (msg : string) (w : W) : res (nd R) * W :=
    match gurobi B P with
    | Err e => (Err e, w)
    | Ok (Some l) => (reshape [n; 1%nat] (vec_of l), w)
    | Ok None => (Err (Exc msg), dumped w)
    end.

  Theorem C51_linear_program_eq_posed : forall m n c A b lb ub,
    shape c = [n; 1%nat] -> shape A = [m; n] -> shape b = [m; 1%nat] -> shape lb = [n; 1%nat] -> shape ub = [n; 1%nat] ->
    (exists P, lp_wf P n /\ (forall x, lp_feas P n x <-> doc_eq A b lb ub m n x) /\ (forall x, lp_obj P n x = lin_obj c n x) /\
       forall w : W, linear_program_eq B "SCIPY" c A b lb ub w = lp_outcome P n w) /\
    (exists P, List.length (gm_vars P) = n /\ (forall x, gm_feas P x <-> doc_eq A b lb ub m n x) /\ (forall x, gm_obj P x = lin_obj c n x) /\
       forall w : W, linear_program_eq B "GUROBI" c A b lb ub w = gm_outcome P n "Gurobi did not solve the LP. Blame Gurobi." w).
  Proof.
    intros m n c A b lb ub Hc HA Hb Hl Hu. split.
    - destruct (col_flat c n Hc) as (c1 & Ec & Sc & Vc). destruct (col_flat b m Hb) as (b1 & Eb & Sb & Vb).
      assert (Zc : size c1 = n) by (unfold size; rewrite Sc; simpl; lia).
      exists (LP c1 None (Some (A, b1)) (map (fun i => (Some (lb.[i, 0%nat]), Some (ub.[i, 0%nat]))) (seq 0 n))).
      split; [|split; [|split]].
      + split; [exact Sc|]. split; [simpl; now rewrite map_length, seq_length|]. split; [simpl; discriminate|].
        simpl. intros A' b' E. injection E as <- <-. exists m. auto.
      + intros x. unfold lp_feas, doc_eq. simpl. rewrite bounds_ok_of. split.
        * intros (_ & H2 & H3). split; auto. intros i Hi. specialize (H2 A b1 i eq_refl). rewrite (nrows_shape2 _ A _ _ HA) in H2.
          rewrite H2 by auto. now apply Vb.
        * intros (H2 & H3). split; [discriminate|]. split; auto. intros A' b' i E. injection E as <- <-.
          rewrite (nrows_shape2 _ A _ _ HA). intros Hi. rewrite H2 by auto. symmetry. now apply Vb.
      + intros x. unfold lp_obj, lin_obj. simpl. apply sumf_ext. intros j Hj. now rewrite Vc.
      + intros w. unfold linear_program_eq, dispatch. rewrite String.eqb_refl. unfold scipy_lp_eq, mbind, mlift.
        rewrite Ec, Eb, (size_col lb n Hl), (bounds_of_ok lb ub n Hl Hu), Zc. unfold lp_outcome.
        destruct (linprog B _) as [[[|] x]|e]; auto. apply dump_val.
    - exists (GM (map (fun i => (Some (lb.[i, 0%nat]), Some (ub.[i, 0%nat]))) (seq 0 n))
                 (map (fun i => (row_expr A i n, GEqual, b.[i, 0%nat])) (seq 0 m)) [] (map (fun j => (c.[j, 0%nat], j)) (seq 0 n))).
      split; [simpl; now rewrite map_length, seq_length|]. split; [|split].
      + intros x. unfold gm_feas, doc_eq. simpl. rewrite bounds_ok_of. split.
        * intros [H1 H2]. split; auto. intros i Hi. rewrite <- gexpr_row.
          apply (H2 _ GEqual). apply in_map_iff. exists i. split; auto. apply in_seq. lia.
        * intros [H1 H2]. split; auto. intros t s bb Hin. apply in_map_iff in Hin. destruct Hin as (i & E & Hi). injection E as <- <- <-.
          rewrite gexpr_row. apply H1. apply in_seq in Hi. lia.
      + intros x. unfold gm_obj, lin_obj. simpl. rewrite gexpr_lin. ring.
      + intros w. unfold linear_program_eq, dispatch. replace (String.eqb "GUROBI" "SCIPY") with false by reflexivity. rewrite String.eqb_refl.
        unfold gurobi_lp_eq, mbind, mlift, shape2. rewrite HA, (bounds_of_ok lb ub n Hl Hu), (g_cons_ok A b m n GEqual Hb), (g_lin_ok c n Hc).
        unfold g_finish, mbind, mlift, gm_outcome. destruct (gurobi B _) as [[l|]|e]; auto. apply dump_val.
  Qed.

  Theorem C51_linear_program_ineq_posed : forall m n c A b,
    shape c = [n; 1%nat] -> shape A = [m; n] -> shape b = [m; 1%nat] ->
    (exists P, lp_wf P n /\ (forall x, lp_feas P n x <-> doc_ineq A b m n x) /\ (forall x, lp_obj P n x = lin_obj c n x) /\
       forall w : W, linear_program_ineq B "SCIPY" c A b w = lp_outcome P n w) /\
    (exists P, List.length (gm_vars P) = n /\ (forall x, gm_feas P x <-> doc_ineq A b m n x) /\ (forall x, gm_obj P x = lin_obj c n x) /\
       forall w : W, linear_program_ineq B "GUROBI" c A b w = gm_outcome P n "Gurobi did not solve the LP. Blame Gurobi." w).
  Proof.
    intros m n c A b Hc HA Hb. split.
    - destruct (col_flat c n Hc) as (c1 & Ec & Sc & Vc). destruct (col_flat b m Hb) as (b1 & Eb & Sb & Vb).
      assert (Zc : size c1 = n) by (unfold size; rewrite Sc; simpl; lia).
      assert (NR : nrows (amap Ropp A) = m) by (unfold nrows; simpl; now rewrite HA).
      assert (NS : forall x i, sumf n (fun j => (amap Ropp A).[i, j] * x j) = - sumf n (fun j => A.[i, j] * x j)).
      { intros x i. rewrite <- sumf_opp. apply sumf_ext. intros j Hj. simpl. ring. }
      exists (LP c1 (Some (amap Ropp A, amap Ropp b1)) None (repeat (None, None) n)).
      split; [|split; [|split]].
      + split; [exact Sc|]. split; [simpl; apply repeat_length|]. split; [|simpl; discriminate].
        simpl. intros A' b' E. injection E as <- <-. exists m. auto.
      + intros x. unfold lp_feas, doc_ineq. cbn [lp_ub lp_eq lp_bounds]. split.
        * intros (H2 & _) i Hi. specialize (H2 _ _ i eq_refl). rewrite NR in H2. specialize (H2 Hi). rewrite NS in H2.
          cbn [amap at_] in H2. rewrite Vb in H2 by auto. lra.
        * intros H2. split; [|split; [discriminate|apply bounds_ok_free]]. intros A' b' i E. injection E as <- <-.
          rewrite NR. intros Hi. rewrite NS. cbn [amap at_]. rewrite Vb by auto. specialize (H2 i Hi). lra.
      + intros x. unfold lp_obj, lin_obj. simpl. apply sumf_ext. intros j Hj. now rewrite Vc.
      + intros w. unfold linear_program_ineq, dispatch. rewrite String.eqb_refl. unfold scipy_lp_ineq, mbind, mlift.
        rewrite Ec, Eb, Zc. unfold lp_outcome. destruct (linprog B _) as [[[|] x]|e]; auto. apply dump_val.
    - exists (GM (g_free n) (map (fun i => (row_expr A i n, GGreaterEqual, b.[i, 0%nat])) (seq 0 m)) [] (map (fun j => (c.[j, 0%nat], j)) (seq 0 n))).
      split; [simpl; apply repeat_length|]. split; [|split].
      + intros x. unfold gm_feas, doc_ineq. cbn [gm_vars gm_cons]. split.
        * intros [H1 H2] i Hi. rewrite <- gexpr_row.
          apply (H2 _ GGreaterEqual). apply in_map_iff. exists i. split; auto. apply in_seq. lia.
        * intros H1. split; [apply bounds_ok_free|]. intros t s bb Hin. apply in_map_iff in Hin. destruct Hin as (i & E & Hi). injection E as <- <- <-.
          rewrite gexpr_row. apply H1. apply in_seq in Hi. lia.
      + intros x. unfold gm_obj, lin_obj. simpl. rewrite gexpr_lin. ring.
      + intros w. unfold linear_program_ineq, dispatch. replace (String.eqb "GUROBI" "SCIPY") with false by reflexivity. rewrite String.eqb_refl.
        unfold gurobi_lp_ineq, mbind, mlift, shape2. rewrite HA, (g_cons_ok A b m n GGreaterEqual Hb), (g_lin_ok c n Hc).
        unfold g_finish, mbind, mlift, gm_outcome. destruct (gurobi B _) as [[l|]|e]; auto. apply dump_val.
  Qed.

  Theorem C51_quadratic_program_bnd_posed : forall n c Q lb ub,
    shape c = [n; 1%nat] -> shape Q = [n; n] -> shape lb = [n; 1%nat] -> shape ub = [n; 1%nat] ->
    (exists P, (forall x, mp_feas P n x <-> doc_bnd lb ub n x) /\ (forall x, mp_fun P (mk1 n x) = Ok (quad_obj c Q n x)) /\
       List.length (mp_bounds P) = n /\ mp_x0 P === mk1 n (fun _ => 0) /\ mp_jac P = Some (qp_jac c Q) /\
       forall w : W, quadratic_program_bnd B "SCIPY" c Q lb ub w = mp_outcome P n w) /\
    (exists P, List.length (gm_vars P) = n /\ (forall x, gm_feas P x <-> doc_bnd lb ub n x) /\ (forall x, gm_obj P x = quad_obj c Q n x) /\
       forall w : W, quadratic_program_bnd B "GUROBI" c Q lb ub w = gm_outcome P n "Gurobi did not solve the QP. Blame Gurobi." w).
  Proof.
    intros n c Q lb ub Hc HQ Hl Hu. split.
    - exists (MP (qp_fun c Q) (mk1 n (fun _ => 0)) "L-BFGS-B" (Some (qp_jac c Q))
                (map (fun i => (Some (lb.[i, 0%nat]), Some (ub.[i, 0%nat]))) (seq 0 n)) None).
      split; [|split; [|split; [|split; [|split]]]].
      + intros x. unfold mp_feas, doc_bnd. cbn [mp_bounds mp_cons]. rewrite bounds_ok_of. split; [tauto|]. intros H; split; auto. discriminate.
      + intros x. cbn [mp_fun]. rewrite (qp_fun_val c Q (mk1 n x) n Hc HQ eq_refl). now rewrite quad_obj_alt.
      + simpl. now rewrite map_length, seq_length.
      + apply eqnd_refl.
      + reflexivity.
      + intros w. unfold quadratic_program_bnd, dispatch. rewrite String.eqb_refl. unfold scipy_qp_bnd, mbind, mlift.
        rewrite (size_col lb n Hl), (bounds_of_ok lb ub n Hl Hu), (size_col c n Hc). unfold mp_outcome.
        destruct (sp_minimize B _) as [r|e]; auto. destruct (mr_success r); auto. apply dump_val.
    - exists (GM (map (fun i => (Some (lb.[i, 0%nat]), Some (ub.[i, 0%nat]))) (seq 0 n)) []
                 (map (fun p => (Q.[fst p, snd p], fst p, snd p)) (list_prod (seq 0 n) (seq 0 n))) (map (fun j => (c.[j, 0%nat], j)) (seq 0 n))).
      split; [simpl; now rewrite map_length, seq_length|]. split; [|split].
      + intros x. unfold gm_feas, doc_bnd. cbn [gm_vars gm_cons]. rewrite bounds_ok_of. split; [tauto|]. intros H; split; auto. intros t s bb [].
      + intros x. unfold gm_obj. cbn [gm_quad gm_lin]. rewrite gexpr_lin, gquad_sum, quad_obj_alt. ring.
      + intros w. unfold quadratic_program_bnd, dispatch. replace (String.eqb "GUROBI" "SCIPY") with false by reflexivity. rewrite String.eqb_refl.
        unfold gurobi_qp_bnd, mbind, mlift. rewrite (nrows_shape2 _ Q _ _ HQ), (bounds_of_ok lb ub n Hl Hu), (g_quad_ok Q n HQ), (g_lin_ok c n Hc).
        unfold g_finish, mbind, mlift, gm_outcome. destruct (gurobi B _) as [[l|]|e]; auto. apply dump_val.
  Qed.

  Theorem C51_quadratic_program_ineq_posed : forall m n c Q A b,
    shape c = [n; 1%nat] -> shape Q = [n; n] -> shape A = [m; n] -> shape b = [m; 1%nat] ->
    (exists P, (forall x, mp_feas P n x <-> doc_ineq A b m n x) /\ (forall x, mp_fun P (mk1 n x) = Ok (quad_obj c Q n x)) /\
       mp_x0 P === mk1 n (fun _ => 0) /\ mp_jac P = Some (qp_jac c Q) /\
       (forall g jg x, mp_cons P = Some (g, jg) -> jg x = Ok A) /\
       forall w : W, quadratic_program_ineq B "SCIPY" c Q A b w = mp_outcome P n w) /\
    (exists P, List.length (gm_vars P) = n /\ (forall x, gm_feas P x <-> doc_ineq A b m n x) /\ (forall x, gm_obj P x = quad_obj c Q n x) /\
       forall w : W, quadratic_program_ineq B "GUROBI" c Q A b w = gm_outcome P n "Gurobi did not solve the QP. Blame Gurobi." w).
  Proof.
    intros m n c Q A b Hc HQ HA Hb. split.
    - destruct (col_flat b m Hb) as (b1 & Eb & Sb & Vb).
      exists (MP (qp_fun c Q) (mk1 n (fun _ => 0)) "SLSQP" (Some (qp_jac c Q)) [] (Some (qp_cons A b1, fun _ => Ok A))).
      split; [|split; [|split; [|split; [|split]]]].
      + intros x. unfold mp_feas, doc_ineq. cbn [mp_bounds mp_cons].
        destruct (qp_cons_val A b1 (mk1 n x) m n HA Sb eq_refl) as (v & Ev & Sv & Vv). split.
        * intros [_ H] i Hi. destruct (H _ _ eq_refl) as (v' & r & E & S' & P'). rewrite Ev in E. injection E as <-.
          rewrite Sv in S'. injection S' as <-. specialize (P' i Hi). rewrite Vv, Vb in P' by auto. rewrite at_mk1 in P' || idtac.
          cbn [mk1 at_ nth] in P'. lra.
        * intros H. split; [apply bounds_ok_nil|]. intros g jg E. injection E as <- <-. exists v, m. split; auto. split; auto.
          intros i Hi. rewrite Vv, Vb by auto. cbn [mk1 at_ nth]. specialize (H i Hi). lra.
      + intros x. cbn [mp_fun]. rewrite (qp_fun_val c Q (mk1 n x) n Hc HQ eq_refl). now rewrite quad_obj_alt.
      + apply eqnd_refl.
      + reflexivity.
      + cbn [mp_cons]. intros g jg x E. injection E as <- <-. reflexivity.
      + intros w. unfold quadratic_program_ineq, dispatch. rewrite String.eqb_refl. unfold scipy_qp_ineq, mbind, mlift.
        rewrite Eb, (size_col c n Hc). unfold mp_outcome.
        destruct (sp_minimize B _) as [r|e]; auto. destruct (mr_success r); auto. apply dump_val.
    - exists (GM (g_free n) (map (fun i => (row_expr A i n, GGreaterEqual, b.[i, 0%nat])) (seq 0 m))
                 (map (fun p => (Q.[fst p, snd p], fst p, snd p)) (list_prod (seq 0 n) (seq 0 n))) (map (fun j => (c.[j, 0%nat], j)) (seq 0 n))).
      split; [simpl; apply repeat_length|]. split; [|split].
      + intros x. unfold gm_feas, doc_ineq. cbn [gm_vars gm_cons]. split.
        * intros [H1 H2] i Hi. rewrite <- gexpr_row.
          apply (H2 _ GGreaterEqual). apply in_map_iff. exists i. split; auto. apply in_seq. lia.
        * intros H1. split; [apply bounds_ok_free|]. intros t s bb Hin. apply in_map_iff in Hin. destruct Hin as (i & E & Hi). injection E as <- <- <-.
          rewrite gexpr_row. apply H1. apply in_seq in Hi. lia.
      + intros x. unfold gm_obj. cbn [gm_quad gm_lin]. rewrite gexpr_lin, gquad_sum, quad_obj_alt. ring.
      + intros w. unfold quadratic_program_ineq, dispatch. replace (String.eqb "GUROBI" "SCIPY") with false by reflexivity. rewrite String.eqb_refl.
        unfold gurobi_qp_ineq, mbind, mlift, shape2. rewrite HA, (g_cons_ok A b m n GGreaterEqual Hb), (g_quad_ok Q n HQ), (g_lin_ok c n Hc).
        unfold g_finish, mbind, mlift, gm_outcome. destruct (gurobi B _) as [[l|]|e]; auto. apply dump_val.
  Qed.
End Posed.
Print Assumptions C51_linear_program_eq_posed.
Print Assumptions C51_linear_program_ineq_posed.
Print Assumptions C51_quadratic_program_bnd_posed.
Print Assumptions C51_quadratic_program_ineq_posed.

(** ** The answers, when the back ends keep their promises *)

(** the point x of scipy.optimize.minimize's answer *)
Definition xpoint (x : xsol) (j : nat) : R := match x with XArr v => v.[j] | XFloat v => v end.
Definition xdim (x : xsol) (n : nat) : Prop := match x with XArr v => shape v = [n] | XFloat _ => n = 1%nat end.

Definition linprog_ok (lin : lp -> res (bool * nd R)) : Prop :=
  forall P n x, lp_wf P n -> lin P = Ok (true, x) ->
    shape x = [n] /\ lp_feas P n (fun j => x.[j]) /\ forall y, lp_feas P n y -> lp_obj P n (fun j => x.[j]) <= lp_obj P n y.
(** a success of minimize is a global minimiser (what a convex QP solver
    promises; asked only of the problem at hand) *)
Definition minimize_ok_at (mn : mprob -> res mres) (P : mprob) (n : nat) : Prop :=
  forall r, mn P = Ok r -> mr_success r = true ->
    xdim (mr_x r) n /\ mp_feas P n (xpoint (mr_x r)) /\
    forall y a b, mp_feas P n y -> mp_fun P (mk1 n (xpoint (mr_x r))) = Ok a -> mp_fun P (mk1 n y) = Ok b -> a <= b.
Definition gurobi_ok (gu : gmodel -> res (option (list R))) : Prop :=
  forall P l, gu P = Ok (Some l) ->
    List.length l = List.length (gm_vars P) /\ gm_feas P (fun j => nth j l 0) /\ forall y, gm_feas P y -> gm_obj P (fun j => nth j l 0) <= gm_obj P y.

Lemma sumf_ext_obj : forall c n x y, (forall j, (j < n)%nat -> x j = y j) -> lin_obj c n x = lin_obj c n y.
Proof. intros. apply sumf_ext. intros j Hj. now rewrite H. Qed.
Lemma quad_ext_obj : forall c Q n x y, (forall j, (j < n)%nat -> x j = y j) -> quad_obj c Q n x = quad_obj c Q n y.
Proof.
  intros. unfold quad_obj. f_equal; [now apply sumf_ext_obj|]. apply sumf_ext. intros i Hi. apply sumf_ext. intros j Hj. now rewrite !H.
Qed.
Lemma doc_eq_ext : forall A b lb ub m n x y, (forall j, (j < n)%nat -> x j = y j) -> doc_eq A b lb ub m n x -> doc_eq A b lb ub m n y.
Proof.
  intros A b lb ub m n x y E [H1 H2]. split.
  - intros i Hi. rewrite <- H1 by auto. apply sumf_ext. intros j Hj. now rewrite E.
  - intros j Hj. rewrite <- E by auto. auto.
Qed.
Lemma doc_ineq_ext : forall A b m n x y, (forall j, (j < n)%nat -> x j = y j) -> doc_ineq A b m n x -> doc_ineq A b m n y.
Proof. intros A b m n x y E H i Hi. rewrite (sumf_ext n _ (fun j => A.[i, j] * x j)); [auto|]. intros j Hj. now rewrite E. Qed.
Lemma doc_bnd_ext : forall lb ub n x y, (forall j, (j < n)%nat -> x j = y j) -> doc_bnd lb ub n x -> doc_bnd lb ub n y.
Proof. intros lb ub n x y E H j Hj. rewrite <- E by auto. auto. Qed.

Lemma solves_transfer : forall n (feas : (nat -> R) -> Prop) (obj : (nat -> R) -> R) (x : nat -> R) z, shape z = [n; 1%nat] -> (forall j, (j < n)%nat -> z.[j, 0%nat] = x j) ->
  (forall u v, (forall j, (j < n)%nat -> u j = v j) -> feas u -> feas v) ->
  (forall u v, (forall j, (j < n)%nat -> u j = v j) -> obj u = obj v) ->
  feas x -> (forall y, feas y -> obj x <= obj y) -> solves n feas obj z.
Proof.
  intros n feas obj x z Sz Vz Hf Ho Fx Ox. split; auto. split.
  - apply (Hf x); auto. intros; symmetry; auto.
  - intros y Fy. rewrite (Ho _ x Vz). auto.
Qed.

Section Answers.
  Context {G : gen} {U L : Type}.
  Notation W := (world G U L).
  Variable B : backend.

  Lemma lp_answer : forall P n (feas : (nat -> R) -> Prop) (obj : (nat -> R) -> R) (w w' : W) z, linprog_ok (linprog B) -> lp_wf P n ->
    (forall x, lp_feas P n x <-> feas x) -> (forall x, lp_obj P n x = obj x) ->
    (forall u v, (forall j, (j < n)%nat -> u j = v j) -> feas u -> feas v) ->
    (forall u v, (forall j, (j < n)%nat -> u j = v j) -> obj u = obj v) ->
    lp_outcome B P n w = (Ok z, w') -> solves n feas obj z /\ w' = w.
  Proof.
    intros P n feas obj w w' z HL HP HF HO Ef Eo H. unfold lp_outcome in H.
    destruct (linprog B P) as [[[|] x]|e] eqn:E; [|discriminate|discriminate]. destruct (HL P n x HP E) as (Sx & Fx & Ox).
    destruct (flat_col x n Sx) as (z' & Ez & Sz & Vz). rewrite Ez in H. injection H as <- <-. split; auto.
    apply (solves_transfer n feas obj (fun j => x.[j])); auto; [now apply HF|]. intros y Hy. rewrite <- !HO. apply Ox. now apply HF.
  Qed.
  Lemma mp_answer : forall P n (feas : (nat -> R) -> Prop) (obj : (nat -> R) -> R) (w w' : W) z, minimize_ok_at (sp_minimize B) P n ->
    (forall x, mp_feas P n x <-> feas x) -> (forall x, mp_fun P (mk1 n x) = Ok (obj x)) ->
    (forall u v, (forall j, (j < n)%nat -> u j = v j) -> feas u -> feas v) ->
    (forall u v, (forall j, (j < n)%nat -> u j = v j) -> obj u = obj v) ->
    mp_outcome B P n w = (Ok z, w') -> solves n feas obj z /\ w' = w.
  Proof.
    intros P n feas obj w w' z HL HF HO Ef Eo H. unfold mp_outcome in H.
    destruct (sp_minimize B P) as [r|e] eqn:E; [|discriminate]. destruct (mr_success r) eqn:Es; [|discriminate].
    destruct (HL r E Es) as (Sx & Fx & Ox).
    assert (K : exists z', reshape [n; 1%nat] (as_array (mr_x r)) = Ok z' /\ shape z' = [n; 1%nat] /\ forall j, (j < n)%nat -> z'.[j, 0%nat] = xpoint (mr_x r) j).
    { destruct (mr_x r) as [v|v]; simpl in Sx |- *; [apply flat_col; exact Sx|]. subst n. exists (mk2 1 1 (fun _ _ => v)). split; [reflexivity|]. split; reflexivity. }
    destruct K as (z' & Ez & Sz & Vz). rewrite Ez in H. injection H as <- <-. split; auto.
    apply (solves_transfer n feas obj (xpoint (mr_x r))); auto; [now apply HF|]. intros y Hy. apply (Ox y); auto. now apply HF.
  Qed.
  Lemma gm_answer : forall P n msg (feas : (nat -> R) -> Prop) (obj : (nat -> R) -> R) (w w' : W) z, gurobi_ok (gurobi B) -> List.length (gm_vars P) = n ->
    (forall x, gm_feas P x <-> feas x) -> (forall x, gm_obj P x = obj x) ->
    (forall u v, (forall j, (j < n)%nat -> u j = v j) -> feas u -> feas v) ->
    (forall u v, (forall j, (j < n)%nat -> u j = v j) -> obj u = obj v) ->
    gm_outcome B P n msg w = (Ok z, w') -> solves n feas obj z /\ w' = w.
  Proof.
    intros P n msg feas obj w w' z HL HN HF HO Ef Eo H. unfold gm_outcome in H.
    destruct (gurobi B P) as [[l|]|e] eqn:E; try discriminate. destruct (HL P l E) as (Sx & Fx & Ox). rewrite HN in Sx.
    destruct (flat_col (vec_of l) n) as (z' & Ez & Sz & Vz); [unfold vec_of; simpl; now rewrite Sx|]. rewrite Ez in H. injection H as <- <-. split; auto.
    apply (solves_transfer n feas obj (fun j => nth j l 0)); auto; [now apply HF|]. intros y Hy. rewrite <- !HO. apply Ox. now apply HF.
  Qed.
  (** a returned value solves the documented program, whichever back end was used *)
  Theorem C51_linear_programs_solved : forall solver m n c A b lb ub (w w' : W) z,
    linprog_ok (linprog B) -> gurobi_ok (gurobi B) ->
    shape c = [n; 1%nat] -> shape A = [m; n] -> shape b = [m; 1%nat] -> shape lb = [n; 1%nat] -> shape ub = [n; 1%nat] ->
    (linear_program_eq B (qp_init B solver) c A b lb ub w = (Ok z, w') -> solves n (doc_eq A b lb ub m n) (lin_obj c n) z /\ w' = w) /\
    (linear_program_ineq B (qp_init B solver) c A b w = (Ok z, w') -> solves n (doc_ineq A b m n) (lin_obj c n) z /\ w' = w).
  Proof.
    intros solver m n c A b lb ub w w' z HL HG Hc HA Hb Hl Hu.
    assert (K : qp_init B solver = "SCIPY"%string \/ qp_init B solver = "GUROBI"%string).
    { unfold qp_init. destruct (_ && _)%bool; auto. destruct (String.eqb solver "SCIPY"); auto. }
    destruct (C51_linear_program_eq_posed (G := G) (U := U) (L := L) B m n c A b lb ub Hc HA Hb Hl Hu) as [(P1 & W1 & F1 & O1 & R1) (P2 & W2 & F2 & O2 & R2)].
    destruct (C51_linear_program_ineq_posed (G := G) (U := U) (L := L) B m n c A b Hc HA Hb) as [(P3 & W3 & F3 & O3 & R3) (P4 & W4 & F4 & O4 & R4)].
    destruct K as [-> | ->]; split; intros H.
    - rewrite R1 in H. exact (lp_answer P1 n _ _ w w' z HL W1 F1 O1 (doc_eq_ext A b lb ub m n) (sumf_ext_obj c n) H).
    - rewrite R3 in H. exact (lp_answer P3 n _ _ w w' z HL W3 F3 O3 (doc_ineq_ext A b m n) (sumf_ext_obj c n) H).
    - rewrite R2 in H. exact (gm_answer P2 n _ _ _ w w' z HG W2 F2 O2 (doc_eq_ext A b lb ub m n) (sumf_ext_obj c n) H).
    - rewrite R4 in H. exact (gm_answer P4 n _ _ _ w w' z HG W4 F4 O4 (doc_ineq_ext A b m n) (sumf_ext_obj c n) H).
  Qed.

  (** for the quadratic programs minimize is asked to succeed only with a
      global minimiser; this is its promise when the objective is convex *)
  Theorem C51_quadratic_programs_solved : forall solver m n c Q A b lb ub (w w' : W) z,
    (forall P, (forall x, mp_fun P (mk1 n x) = Ok (quad_obj c Q n x)) -> minimize_ok_at (sp_minimize B) P n) -> gurobi_ok (gurobi B) ->
    shape c = [n; 1%nat] -> shape Q = [n; n] -> shape A = [m; n] -> shape b = [m; 1%nat] -> shape lb = [n; 1%nat] -> shape ub = [n; 1%nat] ->
    (quadratic_program_bnd B (qp_init B solver) c Q lb ub w = (Ok z, w') -> solves n (doc_bnd lb ub n) (quad_obj c Q n) z /\ w' = w) /\
    (quadratic_program_ineq B (qp_init B solver) c Q A b w = (Ok z, w') -> solves n (doc_ineq A b m n) (quad_obj c Q n) z /\ w' = w).
  Proof.
    intros solver m n c Q A b lb ub w w' z HL HG Hc HQ HA Hb Hl Hu.
    assert (K : qp_init B solver = "SCIPY"%string \/ qp_init B solver = "GUROBI"%string).
    { unfold qp_init. destruct (_ && _)%bool; auto. destruct (String.eqb solver "SCIPY"); auto. }
    destruct (C51_quadratic_program_bnd_posed (G := G) (U := U) (L := L) B n c Q lb ub Hc HQ Hl Hu) as [(P1 & F1 & O1 & _ & _ & _ & R1) (P2 & W2 & F2 & O2 & R2)].
    destruct (C51_quadratic_program_ineq_posed (G := G) (U := U) (L := L) B m n c Q A b Hc HQ HA Hb) as [(P3 & F3 & O3 & _ & _ & _ & R3) (P4 & W4 & F4 & O4 & R4)].
    destruct K as [-> | ->]; split; intros H.
    - rewrite R1 in H. exact (mp_answer P1 n _ _ w w' z (HL P1 O1) F1 O1 (doc_bnd_ext lb ub n) (quad_ext_obj c Q n) H).
    - rewrite R3 in H. exact (mp_answer P3 n _ _ w w' z (HL P3 O3) F3 O3 (doc_ineq_ext A b m n) (quad_ext_obj c Q n) H).
    - rewrite R2 in H. exact (gm_answer P2 n _ _ _ w w' z HG W2 F2 O2 (doc_bnd_ext lb ub n) (quad_ext_obj c Q n) H).
    - rewrite R4 in H. exact (gm_answer P4 n _ _ _ w w' z HG W4 F4 O4 (doc_ineq_ext A b m n) (quad_ext_obj c Q n) H).
  Qed.
End Answers.
Print Assumptions C51_linear_programs_solved.
Print Assumptions C51_quadratic_programs_solved.

(** solver names: GUROBI only when asked for and installed, SCIPY otherwise *)
Theorem C51_solver_names : forall B s,
  (s = "GUROBI"%string /\ has_gurobi B = true -> qp_init B s = "GUROBI"%string) /\
  (s <> "GUROBI"%string \/ has_gurobi B = false -> qp_init B s = "SCIPY"%string) /\
  (forall G U L m c A b Q lb ub (w : world G U L) s', s' <> "GUROBI"%string -> s' <> "SCIPY"%string ->
     In m [linear_program_eq B s' c A b lb ub; linear_program_ineq B s' c A b; quadratic_program_bnd B s' c Q lb ub; quadratic_program_ineq B s' c Q A b] ->
     m w = (Err ValueError, w)).
Proof.
  intros B s. split; [|split].
  - intros [-> H]. unfold qp_init. rewrite H. reflexivity.
  - intros H. unfold qp_init. destruct (String.eqb_spec s "GUROBI") as [E|E]; destruct (has_gurobi B) eqn:Eg; simpl.
    + destruct H; congruence.
    + destruct (String.eqb s "SCIPY"); auto.
    + destruct (String.eqb s "SCIPY"); auto.
    + destruct (String.eqb s "SCIPY"); auto.
  - intros G U L m c A b Q lb ub w s' H1 H2 H. unfold linear_program_eq, linear_program_ineq, quadratic_program_bnd, quadratic_program_ineq, dispatch in H.
    destruct (String.eqb_spec s' "SCIPY"); [contradiction|]. destruct (String.eqb_spec s' "GUROBI"); [contradiction|].
    destruct H as [<-|[<-|[<-|[<-|[]]]]]; reflexivity.
Qed.
Print Assumptions C51_solver_names.

(** ** A back end meeting the linear programming contracts *)

Definition lp_cstrs (P : lp) (n : nat) : list cstr :=
  (match lp_ub P with Some (A, b) => map (fun i => (fun j => A.[i, j], b.[i])) (seq 0 (nrows A)) | None => [] end) ++
  (match lp_eq P with Some (A, b) => flat_map (fun i => [(fun j => A.[i, j], b.[i]); (fun j => - A.[i, j], - b.[i])]) (seq 0 (nrows A)) | None => [] end) ++
  flat_map (fun i => match nth i (lp_bounds P) (None, None) with
     | (l, u) => (match l with Some l => [(fun j => - kron_delta j i, - l)] | None => [] end) ++
                 (match u with Some u => [(fun j => kron_delta j i, u)] | None => [] end) end) (seq 0 n).
Definition linprog_ref (P : lp) : res (bool * nd R) :=
  match shape (lp_c P) with
  | [n] => match lp_solve n (fun j => (lp_c P).[j]) (lp_cstrs P n) with
           | Some x => Ok (true, mk1 n x)
           | None => Ok (false, mk1 n (fun _ => 0))
           end
  | _ => Err ValueError
  end.

Lemma lp_cstrs_sat : forall P n x, lp_wf P n -> (sat n (lp_cstrs P n) x <-> lp_feas P n x).
Proof.
  intros P n x (HC & HB & HU & HE). unfold sat, lp_cstrs, lp_feas.
  assert (SN : forall f, sumf n (fun j => - f j * x j) = - sumf n (fun j => f j * x j)) by (intros f; rewrite <- sumf_opp; apply sumf_ext; intros; ring).
  assert (KD : forall i, (i < n)%nat -> sumf n (fun j => kron_delta j i * x j) = x i).
  { intros i Hi. rewrite (sumf_ext n _ (fun j => kron_delta i j * x j)) by (intros; now rewrite kd_sym). now apply sumf_kd_l. }
  split.
  - intros H. split; [|split].
    + intros A b i E Hi. rewrite E in H. specialize (H (fun j => A.[i, j], b.[i])). unfold csat in H. simpl in H. apply H.
      apply in_or_app. left. apply in_map_iff. exists i. split; auto. apply in_seq. lia.
    + intros A b i E Hi. rewrite E in H.
      assert (I1 : forall c, In c [(fun j => A.[i, j], b.[i]); (fun j => - A.[i, j], - b.[i])] -> csat n x c).
      { intros c Hc. apply H. apply in_or_app. right. apply in_or_app. left. apply in_flat_map. exists i. split; auto. apply in_seq. lia. }
      assert (A1 := I1 _ (or_introl eq_refl)). assert (A2 := I1 _ (or_intror (or_introl eq_refl))). unfold csat in A1, A2. cbn [fst snd] in A1, A2. rewrite SN in A2. lra.
    + intros j p E. assert (Hj : (j < n)%nat) by (rewrite <- HB; apply nth_error_Some; congruence).
      apply nth_error_nth with (d := (None, None)) in E.
      assert (I1 : forall c, In c ((match fst p with Some l => [(fun k => - kron_delta k j, - l)] | None => [] end) ++
                 (match snd p with Some u => [(fun k => kron_delta k j, u)] | None => [] end)) -> csat n x c).
      { intros c Hc. apply H. apply in_or_app. right. apply in_or_app. right. apply in_flat_map. exists j. split; [apply in_seq; lia|]. rewrite E. destruct p; exact Hc. }
      destruct p as [l u]. simpl in I1. split; simpl.
      * destruct l as [l|]; auto. assert (A1 := I1 _ (or_introl eq_refl)). unfold csat in A1. cbn [fst snd] in A1. rewrite SN, KD in A1 by auto. lra.
      * destruct u as [u|]; auto. assert (A1 : csat n x (fun k => kron_delta k j, u)) by (apply I1; apply in_or_app; right; now left).
        unfold csat in A1. cbn [fst snd] in A1. rewrite KD in A1 by auto. lra.
  - intros (H1 & H2 & H3) c Hc. apply in_app_or in Hc. destruct Hc as [Hc|Hc].
    + destruct (lp_ub P) as [[A b]|]; [|contradiction]. apply in_map_iff in Hc. destruct Hc as (i & <- & Hi). apply in_seq in Hi. unfold csat. cbn [fst snd]. apply (H1 A b i); auto; lia.
    + apply in_app_or in Hc. destruct Hc as [Hc|Hc].
      * destruct (lp_eq P) as [[A b]|]; [|contradiction]. apply in_flat_map in Hc. destruct Hc as (i & Hi & Hc). apply in_seq in Hi.
        assert (E := H2 A b i eq_refl ltac:(lia)). destruct Hc as [<-|[<-|[]]]; unfold csat; cbn [fst snd]; [|rewrite SN]; lra.
      * apply in_flat_map in Hc. destruct Hc as (i & Hi & Hc). apply in_seq in Hi.
        assert (E : exists p, nth_error (lp_bounds P) i = Some p /\ nth i (lp_bounds P) (None, None) = p).
        { exists (nth i (lp_bounds P) (None, None)). split; auto. apply nth_error_nth'. lia. }
        destruct E as ([l u] & E1 & E2). rewrite E2 in Hc. specialize (H3 i _ E1). destruct H3 as [B1 B2]. simpl in B1, B2.
        apply in_app_or in Hc. destruct Hc as [Hc|Hc].
        -- destruct l as [l|]; [|contradiction]. destruct Hc as [<-|[]]. unfold csat. cbn [fst snd]. rewrite SN, KD by lia. lra.
        -- destruct u as [u|]; [|contradiction]. destruct Hc as [<-|[]]. unfold csat. cbn [fst snd]. rewrite KD by lia. lra.
Qed.

Lemma linprog_ref_ok : linprog_ok linprog_ref.
Proof.
  intros P n x HP H. unfold linprog_ref in H. destruct HP as [HC HR]. rewrite HC in H.
  destruct (lp_solve n _ _) as [y|] eqn:E; [|discriminate]. injection H as <-. destruct (lp_solve_sound _ _ _ _ E) as [S1 S2].
  split; [reflexivity|]. split.
  - apply lp_cstrs_sat; [split; auto|exact S1].
  - intros z Hz. apply S2. apply lp_cstrs_sat; [split; auto|exact Hz].
Qed.
Lemma linprog_ref_succeeds : forall P n lo, lp_wf P n -> (exists x, lp_feas P n x) -> (forall x, lp_feas P n x -> lo <= lp_obj P n x) ->
  exists x, linprog_ref P = Ok (true, x).
Proof.
  intros P n lo HP (x & Hx) HB. unfold linprog_ref. rewrite (proj1 HP).
  destruct (lp_solve_complete n (fun j => (lp_c P).[j]) (lp_cstrs P n) lo) as (y & ->); [|intros y Hy|eauto].
  - exists x. now apply lp_cstrs_sat.
  - apply HB. now apply lp_cstrs_sat.
Qed.

(** a back end without Gurobi whose LP solver keeps its promises *)
Definition backend_ref : backend :=
  Backend false linprog_ref (fun _ => Ok (MR false (XFloat 0) 0)) (fun _ => Ok None).

(** minimise x0 + x1 subject to x0 >= 1, x1 >= 2, -x0 >= -5: returns, with the
    minimum 3; and an infeasible program leaves one dump file *)
Example C51_case : let c := mat_of [[1]; [1]] in let A := mat_of [[1; 0]; [0; 1]; [-1; 0]] in let b := mat_of [[1]; [2]; [-5]] in
  linprog_ok (linprog backend_ref) /\ gurobi_ok (gurobi backend_ref) /\
  exists z, linear_program_ineq backend_ref (qp_init backend_ref "GUROBI") c A b (toy_world tt : world toy_gen unit unit) = (Ok z, toy_world tt) /\
    z.[0%nat, 0%nat] + z.[1%nat, 0%nat] = 3.
Proof.
  cbv zeta. set (c := mat_of [[1]; [1]]). set (A := mat_of [[1; 0]; [0; 1]; [-1; 0]]). set (b := mat_of [[1]; [2]; [-5]]).
  split; [apply linprog_ref_ok|]. split; [intros P l H; discriminate|].
  destruct (C51_linear_program_ineq_posed (G := toy_gen) (U := unit) (L := unit) backend_ref 3 2 c A b eq_refl eq_refl eq_refl) as [(P & W1 & F1 & O1 & R1) _].
  assert (Feas : forall x : nat -> R, doc_ineq A b 3 2 x <-> 1 <= x 0%nat /\ 2 <= x 1%nat /\ x 0%nat <= 5).
  { intros x. unfold doc_ineq. split.
    - intros H. assert (H0 := H 0%nat ltac:(lia)). assert (H1 := H 1%nat ltac:(lia)). assert (H2 := H 2%nat ltac:(lia)). simpl in H0, H1, H2. lra.
    - intros H [|[|[|i]]] Hi; try lia; simpl; lra. }
  destruct (linprog_ref_succeeds P 2 3) as (x & Ex).
  - exact W1.
  - exists (fun j => match j with O => 1 | _ => 2 end). apply F1, Feas. lra.
  - intros x Hx. rewrite O1. apply F1, Feas in Hx. unfold lin_obj. simpl. lra.
  - assert (Q := R1 (toy_world tt)). unfold lp_outcome in Q. change (linprog backend_ref P) with (linprog_ref P) in Q. rewrite Ex in Q.
    destruct (linprog_ref_ok P 2%nat x W1 Ex) as (Sx & Fx & Ox). destruct (flat_col x 2%nat Sx) as (z & Ez & Sz & Vz). rewrite Ez in Q.
    exists z. split; [exact Q|]. rewrite !Vz by lia. specialize (Ox (fun j => match j with O => 1 | _ => 2 end)).
    rewrite !O1 in Ox. assert (Ox' : lin_obj c 2 (fun j => x.[j]) <= lin_obj c 2 (fun j => match j with O => 1 | _ => 2 end)) by (apply Ox, F1, Feas; lra).
    apply F1, Feas in Fx. unfold lin_obj in Ox'. simpl in Ox'. lra.
Qed.
(** minimise x^2 - 2 x over [2, 3]: the answer 2; the back end clips the
    stationary point 1 into the bounds it is given *)
Definition clip1 (P : mprob) : res mres :=
  match mp_bounds P, mp_cons P with
  | [(Some l, Some u)], None => if Rle_dec l u then Ok (MR true (XArr (mk1 1 (fun _ => Rmax l (Rmin 1 u)))) 0) else Ok (MR false (XFloat 0) 0)
  | _, _ => Ok (MR false (XFloat 0) 0)
  end.
Definition backend_clip : backend := Backend false linprog_ref clip1 (fun _ => Ok None).
Example C51_case_quadratic : let c := mat_of [[-2]] in let Q := mat_of [[1]] in
  (forall P, (forall x, mp_fun P (mk1 1 x) = Ok (quad_obj c Q 1 x)) -> minimize_ok_at (sp_minimize backend_clip) P 1) /\
  exists z, quadratic_program_bnd backend_clip (qp_init backend_clip "") c Q (mat_of [[2]]) (mat_of [[3]]) (toy_world tt : world toy_gen unit unit) = (Ok z, toy_world tt) /\
    z.[0%nat, 0%nat] = 2.
Proof.
  cbv zeta. split.
  - intros P HP r Er Es. change (clip1 P = Ok r) in Er. unfold clip1 in Er.
    destruct (mp_bounds P) as [|[[l|] [u|]] [|? ?]] eqn:EB; try (injection Er as <-; discriminate).
    destruct (mp_cons P) as [?|] eqn:EC; try (injection Er as <-; discriminate).
    destruct (Rle_dec l u) as [LU|]; [|injection Er as <-; discriminate]. injection Er as <-. cbn [mr_x xdim xpoint].
    assert (FB : forall x : nat -> R, mp_feas P 1 x <-> l <= x 0%nat <= u).
    { intros x. unfold mp_feas, bounds_ok. rewrite EB, EC. split.
      - intros [H _]. specialize (H 0%nat _ eq_refl). unfold within in H. simpl in H. lra.
      - intros H. split; [|discriminate]. intros [|j] p E; [|destruct j; discriminate]. injection E as <-. unfold within. simpl. lra. }
    assert (MM : l <= Rmax l (Rmin 1 u) <= u) by (unfold Rmax, Rmin; repeat destruct Rle_dec; lra).
    split; [reflexivity|]. split; [apply FB; simpl; exact MM|]. intros y a b Hy Ha Hb. apply FB in Hy.
    rewrite HP in Ha, Hb. injection Ha as <-. injection Hb as <-. unfold quad_obj. simpl.
    set (v := Rmax l (Rmin 1 u)) in *. set (t := y 0%nat) in *.
    assert (K : (v <= 1 /\ t <= v) \/ (1 <= v /\ v <= t) \/ v = 1) by (unfold v, Rmax, Rmin; repeat destruct Rle_dec; lra).
    assert (K' : 0 <= (t - v) * (t + v - 2)).
    { destruct K as [K|[K|K]]; [|apply Rmult_le_pos; lra|].
      - replace ((t - v) * (t + v - 2)) with ((v - t) * (2 - t - v)) by ring. apply Rmult_le_pos; lra.
      - rewrite K. replace ((t - 1) * (t + 1 - 2)) with (Rsqr (t - 1)) by (unfold Rsqr; ring). apply Rle_0_sqr. }
    clearbody v t. nra.
  - destruct (C51_quadratic_program_bnd_posed (G := toy_gen) (U := unit) (L := unit) backend_clip 1 (mat_of [[-2]]) (mat_of [[1]]) (mat_of [[2]]) (mat_of [[3]]) eq_refl eq_refl eq_refl eq_refl)
      as [(P & FP & _ & LB & _ & _ & R1) _].
    change (qp_init backend_clip "") with "SCIPY"%string.
    unfold quadratic_program_bnd, dispatch. rewrite String.eqb_refl. unfold scipy_qp_bnd, mbind, mlift.
    rewrite (size_col (mat_of [[2]]) 1 eq_refl), (bounds_of_ok (mat_of [[2]]) (mat_of [[3]]) 1 eq_refl eq_refl), (size_col (mat_of [[-2]]) 1 eq_refl).
    change (sp_minimize backend_clip) with clip1. unfold clip1. cbn [mp_bounds mp_cons map seq]. destruct Rle_dec as [|N]; [|exfalso; apply N; simpl; lra].
    cbn [mr_success mr_x as_array]. destruct (flat_col (mk1 1 (fun _ => Rmax ((mat_of [[2]]).[0%nat, 0%nat]) (Rmin 1 ((mat_of [[3]]).[0%nat, 0%nat])))) 1 eq_refl) as (z & Ez & Sz & Vz).
    exists z. rewrite Ez. split; [reflexivity|]. rewrite Vz by lia. simpl. unfold Rmax, Rmin. repeat destruct Rle_dec; lra.
Qed.
Example C51_case_failure : exists e, quadratic_program_bnd backend_ref "SCIPY" (mat_of [[1]]) (mat_of [[1]]) (mat_of [[0]]) (mat_of [[1]])
    (toy_world tt : world toy_gen unit unit) = (Err e, dumped (toy_world tt)) /\ files (dumped (toy_world tt : world toy_gen unit unit)) = 1%nat.
Proof.
  destruct (C51_quadratic_program_bnd_posed (G := toy_gen) (U := unit) (L := unit) backend_ref 1 (mat_of [[1]]) (mat_of [[1]]) (mat_of [[0]]) (mat_of [[1]]) eq_refl eq_refl eq_refl eq_refl)
    as [(P & _ & _ & _ & _ & _ & R1) _]. eexists. split; [rewrite R1; reflexivity|reflexivity].
Qed.

(** ** C52 *)

Definition move_k (x : nat -> R) (k : nat) (t : R) : nat -> R := fun j => if Nat.eqb j k then t else x j.

Lemma derivable_pt_lim_ext' : forall f g x l, (forall t, f t = g t) -> derivable_pt_lim f x l -> derivable_pt_lim g x l.
Proof. intros f g x l H D eps He. destruct (D eps He) as (d & Hd). exists d. intros h Hh Hl. rewrite <- !H. auto. Qed.

(** partial derivative of the quadratic objective *)
Lemma quad_obj_deriv : forall c Q n x k, (k < n)%nat ->
  derivable_pt_lim (fun t => quad_obj c Q n (move_k x k t)) (x k)
    (c.[k, 0%nat] + sumf n (fun i => x i * Q.[i, k]) + sumf n (fun j => Q.[k, j] * x j)).
Proof.
  intros c Q n x k Hk.
  set (a := fun j => if Nat.eqb j k then 0 else x j).
  assert (E : forall t, quad_obj c Q n (move_k x k t) =
     Q.[k, k] * (t * t) + (c.[k, 0%nat] + sumf n (fun i => a i * Q.[i, k]) + sumf n (fun j => Q.[k, j] * a j)) * t + quad_obj c Q n a).
  { intros t.
    assert (M : forall j, move_k x k t j = a j + t * kron_delta j k).
    { intros j. unfold move_k, a, kron_delta. destruct (Nat.eqb_spec j k); ring. }
    unfold quad_obj.
    rewrite (sumf_ext n (fun j => c.[j, 0%nat] * move_k x k t j) (fun j => c.[j, 0%nat] * a j + t * (c.[j, 0%nat] * kron_delta j k))) by (intros; rewrite M; ring).
    rewrite sumf_plus, sumf_scal_l, sumf_kd_r by auto.
    rewrite (sumf_ext n (fun i => sumf n (fun j => move_k x k t i * Q.[i, j] * move_k x k t j))
      (fun i => sumf n (fun j => a i * Q.[i, j] * a j) + t * (a i * Q.[i, k]) + t * (sumf n (fun j => Q.[i, j] * a j) * kron_delta i k) + t * t * (Q.[i, k] * kron_delta i k))).
    2: { intros i Hi. rewrite (sumf_ext n _ (fun j => a i * Q.[i, j] * a j + t * kron_delta i k * (Q.[i, j] * a j) + (t * (a i * Q.[i, j])) * kron_delta j k + (t * t * kron_delta i k * Q.[i, j]) * kron_delta j k)) by (intros; rewrite !M; ring).
         rewrite !sumf_plus, !sumf_kd_r, sumf_scal_l by auto. ring. }
    rewrite !sumf_plus, !sumf_scal_l, !sumf_kd_r by auto. ring. }
  apply (derivable_pt_lim_ext' (fun t => Q.[k, k] * (t * t) + (c.[k, 0%nat] + sumf n (fun i => a i * Q.[i, k]) + sumf n (fun j => Q.[k, j] * a j)) * t + quad_obj c Q n a)).
  { intros t. now rewrite E. }
  assert (X : forall j, x j = a j + x k * kron_delta j k).
  { intros j. unfold a, kron_delta. destruct (Nat.eqb_spec j k); [subst; ring|ring]. }
  rewrite (sumf_ext n (fun i => x i * Q.[i, k]) (fun i => a i * Q.[i, k] + (x k * Q.[i, k]) * kron_delta i k)) by (intros i Hi; rewrite (X i) at 1; ring).
  rewrite (sumf_ext n (fun j => Q.[k, j] * x j) (fun j => Q.[k, j] * a j + (x k * Q.[k, j]) * kron_delta j k)) by (intros i Hi; rewrite (X i) at 1; ring).
  rewrite !sumf_plus, !sumf_kd_r by auto.
  set (u := sumf n (fun i => a i * Q.[i, k])). set (v := sumf n (fun j => Q.[k, j] * a j)). set (q := quad_obj c Q n a).
  replace (c.[k, 0%nat] + (u + x k * Q.[k, k]) + (v + x k * Q.[k, k])) with (Q.[k, k] * (1 * x k + x k * 1) + (c.[k, 0%nat] + u + v) * 1 + 0) by ring.
  apply derivable_pt_lim_plus; [|apply derivable_pt_lim_const].
  apply derivable_pt_lim_plus; apply derivable_pt_lim_scal.
  - apply (derivable_pt_lim_mult id id); apply derivable_pt_lim_id.
  - apply derivable_pt_lim_id.
Qed.

(** x^T Q x with the gradient c + 2 Q^T x: right exactly when Q is symmetric *)
Definition jac_right (c Q : nd R) (n : nat) : Prop :=
  forall x : nat -> R, exists J, qp_jac c Q (mk1 n x) = Ok J /\ shape J = [n] /\
    forall k, (k < n)%nat -> derivable_pt_lim (fun t => match qp_fun c Q (mk1 n (move_k x k t)) with Ok v => v | Err _ => 0 end) (x k) (J.[k]).

Theorem C52_gradient_iff_symmetric_partial : forall c Q n, shape c = [n; 1%nat] -> shape Q = [n; n] ->
  (jac_right c Q n <-> forall i j, (i < n)%nat -> (j < n)%nat -> Q.[i, j] = Q.[j, i]).
Proof.
  intros c Q n Hc HQ.
  assert (F : forall x, qp_fun c Q (mk1 n x) = Ok (quad_obj c Q n x)).
  { intros x. rewrite (qp_fun_val c Q (mk1 n x) n Hc HQ eq_refl). now rewrite quad_obj_alt. }
  assert (D : forall x k, (k < n)%nat -> derivable_pt_lim (fun t => match qp_fun c Q (mk1 n (move_k x k t)) with Ok v => v | Err _ => 0 end) (x k)
     (c.[k, 0%nat] + sumf n (fun i => x i * Q.[i, k]) + sumf n (fun j => Q.[k, j] * x j))).
  { intros x k Hk. eapply derivable_pt_lim_ext'; [|apply quad_obj_deriv; exact Hk]. intros t. cbv beta. now rewrite F. }
  split.
  - intros H i j Hi Hj. destruct (H (fun l => kron_delta i l)) as (J & EJ & SJ & DJ).
    destruct (qp_jac_val c Q (mk1 n (fun l => kron_delta i l)) n Hc HQ eq_refl) as (J' & EJ' & _ & VJ). rewrite EJ in EJ'. injection EJ' as <-.
    assert (U := uniqueness_limite _ _ _ _ (DJ j Hj) (D (fun l => kron_delta i l) j Hj)). rewrite VJ in U by auto. cbn [mk1 at_ nth] in U.
    rewrite sumf_kd_l in U by auto. rewrite (sumf_ext n (fun j0 => Q.[j, j0] * kron_delta i j0) (fun l => kron_delta i l * Q.[j, l])) in U by (intros; ring).
    rewrite sumf_kd_l in U by auto. lra.
  - intros HS x. destruct (qp_jac_val c Q (mk1 n x) n Hc HQ eq_refl) as (J & EJ & SJ & VJ). exists J. split; auto. split; auto.
    intros k Hk. rewrite VJ by auto. cbn [mk1 at_ nth].
    replace (c.[k, 0%nat] + 2 * sumf n (fun i => x i * Q.[i, k])) with (c.[k, 0%nat] + sumf n (fun i => x i * Q.[i, k]) + sumf n (fun j => Q.[k, j] * x j)); [now apply D|].
    rewrite (sumf_ext n (fun j => Q.[k, j] * x j) (fun i => x i * Q.[i, k])) by (intros j Hj; rewrite HS by auto; ring). ring.
Qed.
Print Assumptions C52_gradient_iff_symmetric_partial.

(** both quadratic program methods hand over this gradient (C51_..._posed);
    for the matrix [[0,1],[0,0]] it is wrong *)
Theorem C52_asymmetric_refuted : ~ forall c Q n, shape c = [n; 1%nat] -> shape Q = [n; n] -> jac_right c Q n.
Proof.
  intros H. specialize (H (mat_of [[0]; [0]]) (mat_of [[0; 1]; [0; 0]]) 2%nat eq_refl eq_refl).
  assert (K := proj1 (C52_gradient_iff_symmetric_partial (mat_of [[0]; [0]]) (mat_of [[0; 1]; [0; 0]]) 2 eq_refl eq_refl) H 0%nat 1%nat ltac:(lia) ltac:(lia)). simpl in K. lra.
Qed.
Print Assumptions C52_asymmetric_refuted.

(** constraint Jacobian handed over with the inequality constraints *)
Theorem C52_constraint_jacobian : forall A b m n, shape A = [m; n] -> shape b = [m] -> forall (x : nat -> R) i k, (i < m)%nat -> (k < n)%nat ->
  derivable_pt_lim (fun t => match qp_cons A b (mk1 n (move_k x k t)) with Ok v => v.[i] | Err _ => 0 end) (x k) (A.[i, k]).
Proof.
  intros A b m n HA Hb x i k Hi Hk.
  set (a := fun j => if Nat.eqb j k then 0 else x j).
  apply (derivable_pt_lim_ext' (fun t => A.[i, k] * t + (sumf n (fun j => A.[i, j] * a j) - b.[i]))).
  - intros t. destruct (qp_cons_val A b (mk1 n (move_k x k t)) m n HA Hb eq_refl) as (v & -> & _ & V). rewrite V by auto. cbn [mk1 at_ nth].
    rewrite (sumf_ext n (fun j => A.[i, j] * move_k x k t j) (fun j => A.[i, j] * a j + t * (A.[i, j] * kron_delta j k))).
    + rewrite sumf_plus, sumf_scal_l, sumf_kd_r by auto. ring.
    + intros j Hj. unfold move_k, a, kron_delta. destruct (Nat.eqb_spec j k); ring.
  - set (q := sumf n (fun j => A.[i, j] * a j) - b.[i]). set (p := A.[i, k]).
    assert (K : derivable_pt_lim (fun t => p * t + q) (x k) (p * 1 + 0)).
    { apply (derivable_pt_lim_plus (fun t => p * t) (fun _ => q)); [|apply derivable_pt_lim_const].
      apply (derivable_pt_lim_scal (fun t => t)). apply derivable_pt_lim_id. }
    replace (p * 1 + 0) with p in K by ring. exact K.
Qed.
Print Assumptions C52_constraint_jacobian.

(** a symmetric matrix of size 2, non-zero c *)
Example C52_case : jac_right (mat_of [[1]; [-2]]) (mat_of [[2; 1]; [1; 3]]) 2.
Proof.
  apply C52_gradient_iff_symmetric_partial; [reflexivity|reflexivity|]. intros [|[|i]] [|[|j]] Hi Hj; try lia; reflexivity.
Qed.
