(** Final theorems for optimizers.py: C47-C50, and C35 for its loops *)
From Coq Require Import String Reals Lra Lia List Arith ZArith Bool.
From Verif Require Import Prelude Py NumArr Toy Lsq SolveRef M_Misc M_RespSurf M_Gradients M_Subspaces M_QP M_Domains M_Designs M_ASRS M_Optimizers
  P_Misc P_QP P_Rbf P_PolyFacts P_PolyTrain P_DomSample P_Domains P_Multistart P_Optimizers Properties_RespSurf Properties_QP Properties_Domains Properties_Designs Properties_ASRS.
Import ListNotations.
Open Scope R_scope.

(** ** C47: the multistart loops *)

(** j is the first of the runs r 0, ..., r 9 with the smallest value *)
Definition first_least (r : nat -> mres) (j : nat) : Prop :=
  (j < 10)%nat /\ (forall i, (i < 10)%nat -> mr_fun (r j) <= mr_fun (r i)) /\ forall i, (i < j)%nat -> mr_fun (r j) < mr_fun (r i).

(** ten runs, all successful, and what comes out; a first run that raises, or
    that reports failure.  [run i] is the i-th answer of the solver and [after i]
    the random state after i start points. *)
Definition best_of_ten {G : gen} {U L : Type} (run : nat -> res mres) (after : nat -> gst G) (msg : string) (w : world G U L) (out : res (xsol * R) * world G U L) : Prop :=
  (forall r, (forall i, (i < 10)%nat -> run i = Ok (r i) /\ mr_success (r i) = true) ->
     (exists j, first_least r j /\ mr_fun (r j) < 10 ^ 100 /\ out = (Ok (mr_x (r j), mr_fun (r j)), w)) \/
     ((forall i, (i < 10)%nat -> 10 ^ 100 <= mr_fun (r i)) /\ out = (Err AttributeError, w))) /\
  (forall i, (i < 10)%nat -> (forall i', (i' < i)%nat -> exists v, run i' = Ok v /\ mr_success v = true) ->
     (forall e, run i = Err e -> out = (Err e, set_rng w (after (S i)))) /\
     (forall v, run i = Ok v -> mr_success v = false -> out = (Err (Exc msg), set_rng w (after (S i))))).

Section Loops.
  Context {G : gen} {U L : Type}.
  Notation W := (world G U L).
  Definition ten (n : nat) (sol : nd R -> res mres) (msg : string) : M W (xsol * R) :=
    dom curr_state <- get_state;
    dom _ <- seed 42;
    dom minres <- multistart 10 (dom y0 <- normal2 1 n; mlift (sol y0)) msg (10 ^ 100) None;
    dom _ <- set_state curr_state;
    mlift (unpack minres).
  Lemma ten_run : forall n sol msg (w : W), let s := g_seed G 42 in
    (exists i e, (i < 10)%nat /\ fails 1 n sol msg s i e /\ ten n sol msg w = (Err e, set_rng w (after 1 n s (S i)))) \/
    ((forall i, (i < 10)%nat -> exists v, good 1 n sol s i v) /\ exists o, best 1 n sol s 10 (10 ^ 100) None o /\ ten n sol msg w = (unpack o, w)).
  Proof.
    intros n sol msg w s.
    assert (RUN : ten n sol msg w = match multistart 10 (dom y0 <- normal2 1 n; mlift (sol y0)) msg (10 ^ 100) None (set_rng w s) with
      | (Ok o, w') => (unpack o, set_rng w' (rng w)) | (Err e, w') => (Err e, w') end).
    { unfold ten. unfold mbind at 1, get_state at 1. unfold mbind at 1, seed, set_state at 1. unfold mbind at 1. fold s.
      destruct (multistart 10 _ _ _ _ _) as [[o|e] w']; reflexivity. }
    rewrite RUN. destruct (multistart_spec 1 n sol msg 10 (10 ^ 100) None (set_rng w s)) as [(i & e & Hi & F & E)|(H & o & E & Bt)].
    - left. exists i, e. split; [auto|]. split; [exact F|]. rewrite E. reflexivity.
    - right. split; [exact H|]. exists o. split; [exact Bt|]. rewrite E. cbn [set_rng rng]. destruct w. reflexivity.
  Qed.
  Lemma ten_best : forall n sol msg (w : W), best_of_ten (fun i => sol (start 1 n (g_seed G 42) i)) (after 1 n (g_seed G 42)) msg w (ten n sol msg w).
  Proof.
    intros n sol msg w. destruct (ten_run n sol msg w) as [(i & e & Hi & F & E)|(H & o & Bt & E)]; split.
    - intros r HR. exfalso. eapply (fails_good _ _ _ _ _ 10); [exact Hi|exact F|]. intros i0 Hi0. exists (r i0). exact (HR i0 Hi0).
    - intros i0 Hi0 HB.
      assert (K : forall e0, fails 1 n sol msg (g_seed G 42) i0 e0 -> ten n sol msg w = (Err e0, set_rng w (after 1 n (g_seed G 42) (S i0)))).
      { intros e0 F0. rewrite E. now rewrite (fails_index _ _ _ _ _ _ _ _ _ F F0), (fails_det _ _ _ _ _ _ _ _ _ F F0). }
      split; [intros e0 E0|intros v0 E0 E1]; apply K; (split; [exact HB|]); [now left|right; eauto].
    - intros r HR. destruct Bt as [[-> Bt]|(j & v & Hj & -> & Gv & Lv & B1 & B2)].
      + right. split; [|exact E]. intros i Hi. exact (Bt i (r i) Hi (HR i Hi)).
      + left. exists j. assert (v = r j) as -> by (eapply good_det; [exact Gv|exact (HR j Hj)]). split; [|split; [exact Lv|exact E]].
        split; [exact Hj|]. split; [intros i Hi; exact (B1 i (r i) Hi (HR i Hi))|intros i Hi; exact (B2 i (r i) Hi (HR i ltac:(lia)))].
    - intros i Hi _. destruct (H i Hi) as (v & Gv & Sv). split; [intros e0 E0|intros v0 E0 E1]; exfalso; congruence.
  Qed.
  Lemma ten_state : forall n sol msg, (forall (w w' : W) x, ten n sol msg w = (Ok x, w') -> w' = w) /\
    forall w1 w2 : W, fst (ten n sol msg w1) = fst (ten n sol msg w2).
  Proof.
    intros n sol msg. split.
    - intros w w' x H. destruct (ten_run n sol msg w) as [(i & e & _ & _ & E)|(_ & o & _ & E)]; rewrite E in H; [discriminate|congruence].
    - intros w1 w2. destruct (ten_run n sol msg w1) as [(i & e & Hi & F & ->)|(H & o & Bt & ->)];
      destruct (ten_run n sol msg w2) as [(i' & e' & Hi' & F' & ->)|(H' & o' & Bt' & ->)]; cbn [fst].
      + f_equal. exact (fails_det _ _ _ _ _ _ _ _ _ F F').
      + exfalso. exact (fails_good _ _ _ _ _ _ _ _ Hi F H').
      + exfalso. exact (fails_good _ _ _ _ _ _ _ _ Hi' F' H).
      + now rewrite (best_det _ _ _ _ _ _ _ _ _ Bt Bt').
  Qed.
End Loops.

(** partial: if all ten values are 1e100 or more the loop raises instead *)
Theorem C47_zonotope_minimize_partial : forall (G : gen) (U L : Type) B avfun d avdfun W1 m n cs (w : world G U L),
  s_W1 (d_subs d) = Some W1 -> shape W1 = [m; n] -> d_cons d = Some cs ->
  best_of_ten (fun i => sp_minimize B (MP avfun (start 1 n (g_seed G 42) i) "SLSQP" avdfun [] (Some cs))) (after 1 n (g_seed G 42)) "SLSQP failed with message" w
    (zonotope_minimize B avfun d avdfun w).
Proof.
  intros G U L B avfun d avdfun W1 m n cs w E1 S1 EC. unfold zonotope_minimize. unfold mbind at 1, mlift at 1. rewrite E1. cbn [need].
  unfold mbind at 1, mlift at 1, shape2. rewrite S1, EC.
  exact (ten_best n (fun y0 => sp_minimize B (MP avfun y0 "SLSQP" avdfun [] (Some cs))) "SLSQP failed with message" w).
Qed.
Print Assumptions C47_zonotope_minimize_partial.

Theorem C47_unbounded_minimize_partial : forall (G : gen) (U L : Type) B avfun d avdfun W1 m n (w : world G U L),
  s_W1 (d_subs d) = Some W1 -> shape W1 = [m; n] ->
  let method := match avdfun with None => "SLSQP"%string | Some _ => "BFGS"%string end in
  best_of_ten (fun i => sp_minimize B (MP avfun (start 1 n (g_seed G 42) i) method avdfun [] None)) (after 1 n (g_seed G 42)) (method ++ " failed with message") w
    (unbounded_minimize B avfun d avdfun w).
Proof.
  intros G U L B avfun d avdfun W1 m n w E1 S1 method. unfold unbounded_minimize. unfold mbind at 1, mlift at 1. rewrite E1. cbn [need].
  unfold mbind at 1, mlift at 1, shape2. rewrite S1.
  exact (ten_best n (fun y0 => sp_minimize B (MP avfun y0 method avdfun [] None)) (method ++ " failed with message") w).
Qed.
Print Assumptions C47_unbounded_minimize_partial.

(** the error flag of fminbound decides *)
Theorem C47_interval_minimize : forall fminbound avfun d V a, d_vertY d = Some V -> shape V = [2%nat; S a] ->
  let f := fun y => avfun (ND [] (fun _ => y)) in
  (forall y v, fminbound f (V.[0%nat, 0%nat]) (V.[1%nat, 0%nat]) = Ok (y, v, false) ->
     exists Y, interval_minimize fminbound avfun d = Ok (Y, v) /\ shape Y = [1%nat; 1%nat] /\ Y.[0%nat, 0%nat] = y) /\
  (forall y v, fminbound f (V.[0%nat, 0%nat]) (V.[1%nat, 0%nat]) = Ok (y, v, true) ->
     interval_minimize fminbound avfun d = Err (Exc "Max function values used in fminbound.")) /\
  (forall e, fminbound f (V.[0%nat, 0%nat]) (V.[1%nat, 0%nat]) = Err e -> interval_minimize fminbound avfun d = Err e).
Proof.
  intros fminbound avfun d V a EV SV f. unfold interval_minimize. rewrite EV. unfold get2. rewrite SV. cbn [Nat.ltb Nat.leb andb rbind]. fold f.
  split; [|split]; [intros y v E|intros y v E|intros e E]; rewrite E; cbn [rbind]; [|reflexivity|reflexivity].
  eexists. split; [reflexivity|]. split; [reflexivity|]. now rewrite at_mk2.
Qed.
Print Assumptions C47_interval_minimize.

(** witness against the loops returning the least of any ten values: a solver
    that always reports 1e100 *)
Theorem C47_large_values_refuted : exists B avfun d,
  (forall P, exists r, sp_minimize B P = Ok r /\ mr_success r = true /\ mr_fun r = 10 ^ 100) /\
  forall w : world toy_gen unit unit, unbounded_minimize B avfun d None w = (Err AttributeError, w).
Proof.
  set (B := const_backend (MR true (XArr (vec_of [0])) (10 ^ 100))). set (d := AVD DUnbounded sub3 3 1 None None None None).
  exists B, (fun _ => Ok (10 ^ 100)), d. split; [intros P; eexists; repeat split|].
  intros w. destruct (C47_unbounded_minimize_partial toy_gen unit unit B (fun _ => Ok (10 ^ 100)) d None W31 3 1 w eq_refl eq_refl) as [H _].
  destruct (H (fun _ => MR true (XArr (vec_of [0])) (10 ^ 100))) as [(j & _ & Lt & _)|[_ E]]; [intros; split; reflexivity| |exact E].
  cbn [mr_fun] in Lt. exfalso. exact (Rlt_irrefl _ Lt).
Qed.
Print Assumptions C47_large_values_refuted.

(** a solver that reports the square of the starting point (they are -1, 0,
    1, -1, ...): the run from 0 wins; and a flagged fminbound *)
Definition echo_backend : backend := Backend false (fun _ => Err ValueError)
  (fun P => Ok (MR true (XArr (mk1 1 (fun _ => (mp_x0 P).[0%nat, 0%nat]))) ((mp_x0 P).[0%nat, 0%nat] ^ 2))) (fun _ => Err ValueError).
Definition dom3 : avdomain := AVD DUnbounded sub3 3 1 None None None None.
Definition dom3b : avdomain := AVD DBounded sub3 3 1 (Some (mat_of [[-5 / 3]; [5 / 3]])) None None (Some (fun _ => Ok (mk1 1 (fun _ => 1)), fun _ => Ok (mk1 1 (fun _ => 1)))).

Example C47_case : (forall w : world toy_gen unit unit, exists x, unbounded_minimize echo_backend (fun _ => Ok 0) dom3 None w = (Ok (XArr x, 0), w) /\ x.[0%nat] = 0) /\
  (forall w : world toy_gen unit unit, exists x, zonotope_minimize echo_backend (fun _ => Ok 0) dom3b None w = (Ok (XArr x, 0), w) /\ x.[0%nat] = 0) /\
  interval_minimize (fun f a b => Ok (a, b, true)) (fun _ => Ok 0) dom3b = Err (Exc "Max function values used in fminbound.") /\
  exists Y, interval_minimize (fun f a b => do v <- f b; Ok (b, v, false)) (fun y => Ok (1 + y.[0%nat])) dom3b = Ok (Y, 1 + 5 / 3) /\ Y.[0%nat, 0%nat] = 5 / 3.
Proof.
  set (r := fun i => MR true (XArr (mk1 1 (fun _ => (start (G := toy_gen) 1 1 42%nat i).[0%nat, 0%nat]))) ((start (G := toy_gen) 1 1 42%nat i).[0%nat, 0%nat] ^ 2)).
  assert (Z1 : mr_fun (r 1%nat) = 0) by (unfold r; cbn; lra).
  assert (K : forall (w : world toy_gen unit unit) out af msg, best_of_ten (fun i => Ok (r i)) af msg w out -> exists x, out = (Ok (XArr x, 0), w) /\ x.[0%nat] = 0).
  { intros w out af msg [H _]. destruct (H r ltac:(intros; split; reflexivity)) as [(j & (Hj & H1 & _) & _ & E)|[H1 _]].
    - specialize (H1 1%nat ltac:(lia)). rewrite Z1 in H1. set (a := (start (G := toy_gen) 1 1 42%nat j).[0%nat, 0%nat]) in *. assert (E0 : mr_fun (r j) = a ^ 2) by reflexivity.
      assert (a = 0) as Ea by (rewrite E0 in H1; nra). exists (mk1 1 (fun _ => a)). rewrite E, E0. split; [|exact Ea]. unfold r. cbn [mr_x]. fold a. rewrite Ea. repeat f_equal. ring.
    - exfalso. specialize (H1 1%nat ltac:(lia)). rewrite Z1 in H1. assert (0 < 10 ^ 100) by (apply pow_lt; lra). lra. }
  split; [|split; [|split]].
  - intros w. exact (K w _ _ _ (C47_unbounded_minimize_partial toy_gen unit unit echo_backend (fun _ => Ok 0) dom3 None W31 3 1 w eq_refl eq_refl)).
  - intros w. exact (K w _ _ _ (C47_zonotope_minimize_partial toy_gen unit unit echo_backend (fun _ => Ok 0) dom3b None W31 3 1 _ w eq_refl eq_refl eq_refl)).
  - apply (proj1 (proj2 (C47_interval_minimize (fun f a b => Ok (a, b, true)) (fun _ => Ok 0) dom3b _ 0 eq_refl eq_refl)) (-5 / 3) (5 / 3)). reflexivity.
  - destruct (proj1 (C47_interval_minimize (fun f a b => do v <- f b; Ok (b, v, false)) (fun y => Ok (1 + y.[0%nat])) dom3b _ 0 eq_refl eq_refl) (5 / 3) (1 + 5 / 3) eq_refl) as (Y & E & _ & V). eauto.
Qed.

(** ** C35 for the optimisers *)

Lemma zonotope_form : forall (G : gen) (U L : Type) B avfun d avdfun, (exists e, forall w : world G U L, zonotope_minimize B avfun d avdfun w = (Err e, w)) \/
  exists n sol msg, forall w : world G U L, zonotope_minimize B avfun d avdfun w = ten n sol msg w.
Proof.
  intros G U L B avfun d avdfun. unfold zonotope_minimize. destruct (s_W1 (d_subs d)) as [W1|]; [|left; eexists; reflexivity]. cbn [need].
  destruct (shape2 W1) as [[m n]|e] eqn:ES; [right|left; exists e; intros w; unfold mbind, mlift; rewrite ES; reflexivity].
  exists n, (fun y0 => match d_cons d with None => Err TypeError | Some cs => sp_minimize B (MP avfun y0 "SLSQP" avdfun [] (Some cs)) end), "SLSQP failed with message"%string.
  intros w. unfold mbind at 1, mlift at 1. unfold mbind at 1, mlift at 1. rewrite ES. reflexivity.
Qed.
Lemma unbounded_form : forall (G : gen) (U L : Type) B avfun d avdfun, (exists e, forall w : world G U L, unbounded_minimize B avfun d avdfun w = (Err e, w)) \/
  exists n sol msg, forall w : world G U L, unbounded_minimize B avfun d avdfun w = ten n sol msg w.
Proof.
  intros G U L B avfun d avdfun. unfold unbounded_minimize. destruct (s_W1 (d_subs d)) as [W1|]; [|left; eexists; reflexivity]. cbn [need].
  destruct (shape2 W1) as [[m n]|e] eqn:ES; [right|left; exists e; intros w; unfold mbind, mlift; rewrite ES; reflexivity].
  set (method := match avdfun with None => "SLSQP"%string | Some _ => "BFGS"%string end).
  exists n, (fun y0 => sp_minimize B (MP avfun y0 method avdfun [] None)), (method ++ " failed with message")%string.
  intros w. unfold mbind at 1, mlift at 1. unfold mbind at 1, mlift at 1. rewrite ES. reflexivity.
Qed.
(** a call that returns leaves everything as it was, and the outcome, result
    or exception, does not depend on the random state *)
Theorem C35_optimizers_partial : forall (G : gen) (U L : Type) B avfun d avdfun,
  (forall (w w' : world G U L) x, zonotope_minimize B avfun d avdfun w = (Ok x, w') -> w' = w) /\
  (forall w1 w2 : world G U L, fst (zonotope_minimize B avfun d avdfun w1) = fst (zonotope_minimize B avfun d avdfun w2)) /\
  (forall (w w' : world G U L) x, unbounded_minimize B avfun d avdfun w = (Ok x, w') -> w' = w) /\
  (forall w1 w2 : world G U L, fst (unbounded_minimize B avfun d avdfun w1) = fst (unbounded_minimize B avfun d avdfun w2)).
Proof.
  intros G U L B avfun d avdfun.
  assert (K : forall p : M (world G U L) (xsol * R), ((exists e, forall w, p w = (Err e, w)) \/ (exists n sol msg, forall w, p w = ten n sol msg w)) ->
    (forall w w' x, p w = (Ok x, w') -> w' = w) /\ forall w1 w2, fst (p w1) = fst (p w2)).
  { intros p [(e & E)|(n & sol & msg & E)]; [split; intros; [rewrite E in H; discriminate|now rewrite !E]|].
    destruct (ten_state (G := G) (U := U) (L := L) n sol msg) as [A1 A2]. split; intros; [rewrite E in H; eauto|rewrite !E; apply A2]. }
  destruct (K _ (zonotope_form G U L B avfun d avdfun)) as [A1 A2]. destruct (K _ (unbounded_form G U L B avfun d avdfun)) as [B1 B2]. auto.
Qed.
Print Assumptions C35_optimizers_partial.
(** witness: one failing run leaves the global stream seeded *)
Theorem C35_optimizer_exception_refuted : exists B avfun d e w', unbounded_minimize (G := toy_gen) (U := unit) (L := unit) B avfun d None (toy_world tt) = (Err e, w') /\ rng w' <> rng (@toy_world unit unit tt).
Proof.
  set (B := const_backend (MR false (XFloat 0) 0)).
  exists B, (fun _ => Ok 0), dom3, (Exc "SLSQP failed with message"), (set_rng (toy_world tt) (after 1 1 (g_seed toy_gen 42) 1)). split; [|unfold after; simpl; lia].
  destruct (C47_unbounded_minimize_partial toy_gen unit unit B (fun _ => Ok 0) dom3 None W31 3 1 (toy_world tt) eq_refl eq_refl) as [_ H].
  apply (proj2 (H 0%nat ltac:(lia) ltac:(intros; lia)) (MR false (XFloat 0) 0)); reflexivity.
Qed.
Print Assumptions C35_optimizer_exception_refuted.

(** ** C49 *)

(** a quadratic along the l-th coordinate *)
Lemma along : forall k (c : nat -> R) Q (a : nat -> R) l t, (l < k)%nat -> (forall i j, (i < k)%nat -> (j < k)%nat -> Q i j = Q j i) ->
  let q := fun z : nat -> R => sumf k (fun i => c i * z i) + / 2 * sumf k (fun i => sumf k (fun j => z i * Q i j * z j)) in
  q (fun j => a j + if Nat.eqb j l then t else 0) = q a + t * (c l + sumf k (fun j => Q l j * a j)) + / 2 * t * t * Q l l.
Proof.
  intros k c Q a l t Hl HS q. set (d := fun j => if Nat.eqb j l then t else 0).
  change (fun j => a j + (if Nat.eqb j l then t else 0)) with (fun j => a j + d j). unfold q. cbv beta.
  assert (D : forall (u : nat -> R), sumf k (fun j => u j * d j) = u l * t).
  { intros u. rewrite (sumf_single k l); [unfold d; now rewrite Nat.eqb_refl|exact Hl|]. intros i Hi N. unfold d. apply Nat.eqb_neq in N. rewrite N. ring. }
  rewrite (sumf_ext k (fun i => sumf k (fun j => (a i + d i) * Q i j * (a j + d j))) (fun i => sumf k (fun j => Q i j * (a i + d i) * (a j + d j)))) by (intros; apply sumf_ext; intros; ring).
  rewrite (sumf_ext k (fun i => sumf k (fun j => a i * Q i j * a j)) (fun i => sumf k (fun j => Q i j * a i * a j))) by (intros; apply sumf_ext; intros; ring).
  rewrite (quad_shift k c Q a d HS). rewrite D.
  rewrite (sumf_ext k (fun i => d i * sumf k (fun b => Q i b * a b)) (fun i => sumf k (fun b => Q i b * a b) * d i)) by (intros; ring). rewrite D.
  rewrite (sumf_ext k (fun i => sumf k (fun b => Q i b * d i * d b)) (fun i => (Q i l * t) * d i)).
  2:{ intros i Hi. rewrite <- (D (fun b => Q i b)), <- sumf_scal_r. apply sumf_ext. intros; ring. }
  rewrite D. ring.
Qed.

(** partial derivative of the model in z_l, at a *)
Lemma model_slope : forall (q : (nat -> R) -> R) k (c : nat -> R) Q a l, (l < k)%nat -> (forall i j, (i < k)%nat -> (j < k)%nat -> Q i j = Q j i) ->
  (forall z, q z = q (fun _ => 0) + sumf k (fun i => c i * z i) + / 2 * sumf k (fun i => sumf k (fun j => z i * Q i j * z j))) ->
  derivable_pt_lim (fun t => q (fun j => a j + if Nat.eqb j l then t else 0)) 0 (c l + sumf k (fun j => Q l j * a j)).
Proof.
  intros q k c Q a l Hl HS HQ. set (g := c l + sumf k (fun j => Q l j * a j)).
  assert (E : forall t, q (fun j => a j + if Nat.eqb j l then t else 0) = q a + (g * t + / 2 * Q l l * (t * t))).
  { intros t. rewrite HQ, (HQ a). pose proof (along k c Q a l t Hl HS) as AL. cbv zeta in AL. rewrite !Rplus_assoc in *. rewrite AL. unfold g. ring. }
  eapply derivable_pt_lim_ext; [intros t; symmetry; apply E|].
  assert (EG : 0 + (g * 1 + / 2 * Q l l * (1 * 0 + 0 * 1)) = g) by ring. 
  match goal with |- derivable_pt_lim ?h ?x _ => refine (eq_ind _ (derivable_pt_lim h x) _ _ EG) end. clear EG.
  apply (derivable_pt_lim_plus (fun _ => q a) (fun t => g * t + / 2 * Q l l * (t * t))); [apply derivable_pt_lim_const|].
  apply (derivable_pt_lim_plus (fun t => g * t) (fun t => / 2 * Q l l * (t * t))).
  - apply (derivable_pt_lim_scal (fun t => t)). apply derivable_pt_lim_id.
  - apply (derivable_pt_lim_scal (fun t => t * t)). apply (derivable_pt_lim_mult (fun t => t) (fun t => t)); apply derivable_pt_lim_id.
Qed.

(** partial: the z returned is the mirror image -z* of a stationary point z*
    of the trained model; the slopes of the model at z are twice those at 0 *)
Theorem C49_mirrored_partial : forall (G : gen) (U L : Type) lstsq solve d m n Wm W1 W2 X f M v Y NY Z (w w' : world G U L),
  lstsq_contract lstsq -> solve_sound solve -> frame (d_subs d) m n Wm W1 W2 -> (1 <= m)%nat -> shape X = [M; m] -> shape f = [M; 1%nat] -> shape Y = [NY; n] ->
  mvm_train lstsq d X f = Ok v -> umvm_regularize solve d v Y 1 w = (Ok Z, w') ->
  let p := Nat.min (if Nat.ltb 2 (m - n) then n + 2 else n + 1) m in
  w' = w /\ shape Z = [NY; (m - n)%nat; 1%nat] /\ exists pr, fitted lstsq X f Wm M m p pr /\
  forall i l, (i < NY)%nat -> (l < m - n)%nat -> let q := min_model pr p m n Wm W1 W2 (fun j => Y.[i, j]) in
    derivable_pt_lim (fun t => q (fun j => - Z.[i, j, 0%nat] + if Nat.eqb j l then t else 0)) 0 0 /\
    exists g, derivable_pt_lim (fun t => q (fun j => if Nat.eqb j l then t else 0)) 0 g /\
              derivable_pt_lim (fun t => q (fun j => Z.[i, j, 0%nat] + if Nat.eqb j l then t else 0)) 0 (2 * g).
Proof.
  intros G U L lstsq solve d m n Wm W1 W2 X f M v Y NY Z w w' HL HS F Hm SX Sf SY HT HR p.
  destruct (mvm_train_spec lstsq d m n Wm W1 W2 X f M v HL F Hm SX Sf HT) as (pr & FT & Sb & SA & SQ & QS & MV). fold (mvm_p m n) in p. fold p in FT, MV.
  destruct (umvm_spec solve d m n Wm W1 W2 v Y NY Z w w' HS F SY Sb SA SQ HR) as (-> & SZ & VZ). split; [reflexivity|]. split; [exact SZ|].
  exists pr. split; [exact FT|]. intros i l Hi Hl q.
  set (c := fun l => (mv_bz v).[l, 0%nat] + sumf n (fun j => (mv_zAy v).[l, j] * Y.[i, j])).
  assert (HQ : forall z, q z = q (fun _ => 0) + sumf (m - n) (fun i => c i * z i) + / 2 * sumf (m - n) (fun i => sumf (m - n) (fun j => z i * (mv_zAz v).[i, j] * z j))).
  { intros z. exact (MV (fun j => Y.[i, j]) z). }
  pose proof (VZ i l Hi Hl) as EV. fold (c l) in EV.
  assert (SL : forall a, derivable_pt_lim (fun t => q (fun j => a j + if Nat.eqb j l then t else 0)) 0 (c l + sumf (m - n) (fun j => (mv_zAz v).[l, j] * a j))).
  { intros a. exact (model_slope q (m - n) c (fun i j => (mv_zAz v).[i, j]) a l Hl QS HQ). }
  split; [|exists (c l); split].
  - pose proof (SL (fun j => - Z.[i, j, 0%nat])) as S1. cbv beta in S1.
    rewrite (sumf_ext (m - n) _ (fun j => - ((mv_zAz v).[l, j] * Z.[i, j, 0%nat]))) in S1 by (intros; ring). rewrite sumf_opp, EV, Rplus_opp_r in S1. exact S1.
  - pose proof (SL (fun _ => 0)) as S0. cbv beta in S0. rewrite (sumf_zero (m - n)) in S0 by (intros; ring). rewrite Rplus_0_r in S0.
    eapply derivable_pt_lim_ext; [|exact S0]. intros t. cbv beta. unfold q, min_model, xpt. f_equal.
    + f_equal. f_equal. apply FunctionalExtensionality.functional_extensionality. intros a. apply sumf_ext. intros b Hb. f_equal. f_equal. apply sumf_ext. intros; ring.
    + f_equal. apply sumf_ext. intros; ring.
  - replace (2 * c l) with (c l + sumf (m - n) (fun j => (mv_zAz v).[l, j] * Z.[i, j, 0%nat])) by (rewrite EV; ring). apply SL.
Qed.
Print Assumptions C49_mirrored_partial.
