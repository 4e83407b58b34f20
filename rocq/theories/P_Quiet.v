(** Programs that draw random numbers but call no user code and, when they
    succeed, leave no files behind *)
From Coq Require Import String Reals Lra Lia List Arith ZArith Bool.
From Verif Require Import Prelude Py NumArr M_Misc M_RespSurf M_SimRunners M_Gradients M_Subspaces M_Quadrature M_QP M_Domains M_Designs M_ASRS.
Import ListNotations.
Open Scope R_scope.

Section Quiet.
  Context {G : gen} {U L : Type}.
  Notation W := (world G U L).

  Definition quiet {A} (m : M W A) : Prop := forall w r w', m w = (r, w') ->
    usr w' = usr w /\ calls w' = calls w /\ match r with Ok _ => files w' = files w | Err _ => True end.

  Lemma quiet_ret : forall A (a : A), quiet (mret a).
  Proof. intros A a w r w' H. injection H as <- <-. auto. Qed.
  Lemma quiet_err : forall A e, quiet (A := A) (merr e).
  Proof. intros A e w r w' H. injection H as <- <-. auto. Qed.
  Lemma quiet_lift : forall A (x : res A), quiet (mlift x).
  Proof. intros A x w r w' H. injection H as <- <-. destruct x; auto. Qed.
  Lemma quiet_bind : forall A C (m : M W A) (k : A -> M W C), quiet m -> (forall a, quiet (k a)) -> quiet (mbind m k).
  Proof.
    intros A C m k Hm Hk w r w' H. unfold mbind in H. destruct (m w) as [[a|e] w1] eqn:E.
    - destruct (Hm _ _ _ E) as (A1 & A2 & A3). destruct (Hk a _ _ _ H) as (B1 & B2 & B3).
      split; [congruence|]. split; [congruence|]. destruct r; congruence.
    - injection H as <- <-. exact (Hm _ _ _ E).
  Qed.
  Lemma quiet_normal : quiet draw_normal.
  Proof. intros w r w' H. unfold draw_normal in H. destruct (g_normal G (rng w)). injection H as <- <-. auto. Qed.
  Lemma quiet_uniform : forall lo hi, quiet (draw_uniform lo hi).
  Proof. intros lo hi w r w' H. unfold draw_uniform in H. destruct (g_unif G (rng w)). injection H as <- <-. auto. Qed.
  Lemma quiet_randint : forall n, quiet (draw_randint n).
  Proof. intros n w r w' H. unfold draw_randint in H. destruct n; [injection H as <- <-; auto|]. destruct (g_randint G _ (rng w)). injection H as <- <-. auto. Qed.
  Lemma quiet_get : quiet get_state.
  Proof. intros w r w' H. injection H as <- <-. auto. Qed.
  Lemma quiet_set : forall s : gst G, quiet (set_state s).
  Proof. intros s w r w' H. injection H as <- <-. auto. Qed.
  Lemma quiet_repeat : forall A n (m : M W A), quiet m -> quiet (repeatM n m).
  Proof. intros A n m Hm. induction n; cbn [repeatM]; [apply quiet_ret|]. repeat (apply quiet_bind; [assumption|intros]). apply quiet_ret. Qed.
  Lemma quiet_mmap : forall A C (f : A -> M W C) l, (forall a, quiet (f a)) -> quiet (mmap f l).
  Proof. intros A C f l Hf. induction l; cbn [mmap]; [apply quiet_ret|]. apply quiet_bind; [apply Hf|intros]. apply quiet_bind; [assumption|intros]. apply quiet_ret. Qed.
  Lemma quiet_dump : forall A msg, quiet (dump_and_raise (A := A) msg).
  Proof.
    intros A msg w r w' H. unfold dump_and_raise in H. unfold mbind at 1 in H. destruct (draw_randint billion w) as [[x|e] w1] eqn:E.
    - destruct (quiet_randint _ _ _ _ E) as (A1 & A2 & _). unfold mbind, savefile, merr in H. injection H as <- <-. auto.
    - injection H as <- <-. destruct (quiet_randint _ _ _ _ E) as (A1 & A2 & _). auto.
  Qed.

  Variable B : backend.
  Ltac q1 := first
    [ apply quiet_ret | apply quiet_err | apply quiet_lift | apply quiet_dump | apply quiet_normal | apply quiet_uniform | apply quiet_get | apply quiet_set
    | assumption
    | apply quiet_bind; [|intros] | apply quiet_repeat | apply quiet_mmap; intros
    | match goal with |- quiet (match ?x with _ => _ end) => destruct x end
    | match goal with |- quiet ((match ?x with _ => _ end)) => destruct x end ].
  Ltac q := repeat q1.

  Lemma quiet_lp_ineq : forall sv c A b, quiet (linear_program_ineq B sv c A b).
  Proof. intros. unfold linear_program_ineq, dispatch, scipy_lp_ineq, gurobi_lp_ineq, g_finish. q. Qed.
  Lemma quiet_lp_eq : forall sv c A b lb ub, quiet (linear_program_eq B sv c A b lb ub).
  Proof. intros. unfold linear_program_eq, dispatch, scipy_lp_eq, gurobi_lp_eq, g_finish. q. Qed.
  Lemma quiet_qp_ineq : forall sv c Q A b, quiet (quadratic_program_ineq B sv c Q A b).
  Proof. intros. unfold quadratic_program_ineq, dispatch, scipy_qp_ineq, gurobi_qp_ineq, g_finish. q. Qed.
  Lemma quiet_qp_bnd : forall sv c Q lb ub, quiet (quadratic_program_bnd B sv c Q lb ub).
  Proof. intros. unfold quadratic_program_bnd, dispatch, scipy_qp_bnd, gurobi_qp_bnd, g_finish. q. Qed.
  Lemma quiet_normal2 : forall r c, quiet (normal2 r c).
  Proof. intros. unfold normal2. q. Qed.
  Lemma quiet_normal3 : forall a b c, quiet (normal3 a b c).
  Proof. intros. unfold normal3. q. Qed.
  Lemma quiet_uniform2 : forall lo hi r c, quiet (uniform2 lo hi r c).
  Proof. intros. unfold uniform2. q. Qed.
  Lemma quiet_rejection : forall N y W1 W2, quiet (rejection_sampling_z B N y W1 W2).
  Proof.
    intros. unfold rejection_sampling_z. cbv zeta.
    repeat first [apply quiet_lp_ineq | apply quiet_uniform2 | q1].
  Qed.
  Lemma quiet_pick : forall rem A b z0 k, quiet (pick_dir A b z0 k rem).
  Proof. induction rem; intros; cbn [pick_dir]; repeat first [apply quiet_normal2 | apply IHrem | q1]. Qed.
  Lemma quiet_hr_step : forall A b z0 d, quiet (hr_step A b z0 d).
  Proof. intros. unfold hr_step, uniform_x. q. Qed.
  Lemma quiet_hr_walk : forall rows A b z0 k, quiet (hr_walk A b z0 k rows).
  Proof. induction rows; intros; cbn [hr_walk]; repeat first [apply quiet_pick | apply quiet_hr_step | apply IHrows | q1]. Qed.
  Lemma quiet_sample : forall N y W1 W2, quiet (sample_z B N y W1 W2).
  Proof.
    intros. unfold sample_z, hit_and_run_z, chebyshev_start. cbv zeta.
    repeat first [apply quiet_rejection | apply quiet_lp_ineq | apply quiet_hr_walk | q1].
  Qed.
  Lemma quiet_regularize : forall a Y N, quiet (regularize_z B a Y N).
  Proof.
    intros. unfold regularize_z, regularize_bounded, regularize_unbounded.
    repeat first [apply quiet_sample | apply quiet_normal3 | q1].
  Qed.
  Lemma quiet_inverse_with : forall d reg Y N, (forall Y N, quiet (reg Y N)) -> quiet (av_inverse_with d reg Y N).
  Proof. intros d reg Y N H. unfold av_inverse_with. repeat first [apply H | q1]. Qed.
  Lemma quiet_inverse : forall a Y N, quiet (av_inverse B a Y N).
  Proof. intros. apply quiet_inverse_with. intros. apply quiet_regularize. Qed.
  Lemma quiet_multistart : forall k run msg minf r, quiet run -> quiet (multistart k run msg minf r).
  Proof. induction k; intros; cbn [multistart]; repeat first [apply IHk | q1]. Qed.
  Lemma quiet_maximin : forall hull v N, quiet (maximin_design B hull v N).
  Proof.
    intros. unfold maximin_design, seed. repeat first [apply quiet_multistart | apply quiet_normal2 | q1].
  Qed.
End Quiet.

Lemma quiet_design : forall G U (B : backend) hull eig argsort a N NMC, quiet (G := G) (U := U) (L := nd R) (av_design B hull eig argsort a N NMC).
Proof.
  intros. unfold av_design. destruct a as [a|], N as [N|], NMC as [NMC|]; try apply quiet_err. cbv zeta.
  apply quiet_bind; [apply quiet_lift|intros W1]. apply quiet_bind; [apply quiet_lift|intros [m n]].
  apply quiet_bind.
  - destruct (d_kind _); [apply quiet_lift| |apply quiet_err]. apply quiet_bind; [apply quiet_lift|intros v]. destruct (Nat.eqb n 1); [apply quiet_lift|apply quiet_maximin].
  - intros Y. apply quiet_bind; [apply quiet_inverse|intros [X ind]; apply quiet_ret].
Qed.
