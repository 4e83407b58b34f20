(** C108: when the unit tests of the surfaces and integrals over the active variables pass. *)
From Coq Require Import String Reals Lra Lia List Arith ZArith Bool.
From Verif Require Import Prelude Py NumArr LinAlg Lsq Sorting Spectral M_Misc P_Misc M_SimRunners M_Gradients M_QP M_RespSurf M_Subspaces M_Quadrature M_Domains M_Designs M_ASRS M_Integrals P_Subspaces P_Partition
  P_Quadrature P_PolyTrain P_Rbf SolveRef Cholesky EighRef P_DomWitness Properties_RbfObj M_Tests P_Tests P_Notebooks M_TestsSpace P_TestsDomain M_TestsAS P_TestsSurf P_TestsAS P_TestsAS2.
Import ListNotations.
Open Scope R_scope.

Definition passes {G : gen} {U : Type} (t : Py.M (world G U (nd R)) unit) (w : world G U (nd R)) : Prop := exists w', t w = (Ok tt, w').
(** passes, unless qhull raises for the vertices *)
Definition passes_or_hull {G : gen} {U : Type} (ch : nd R -> res (nd R)) (t : Py.M (world G U (nd R)) unit) (w : world G U (nd R)) : Prop :=
  exists r w', t w = (r, w') /\ (r = Ok tt \/ exists Y e, ch Y = Err e /\ r = Err e).
(** the K drawn gradients span the space, and no quadric passes through the K drawn inputs *)
Definition general (G : gen) (bnd : bool) (K : nat) : Prop := spanning K 3 (gradient_at G bnd K) /\ no_quadric K 3 (input_at G bnd).

(** The constructors, and the tests that train on data.  The polynomial surface can always be
    trained; the Gaussian one when the draws are in general position. *)
Theorem C108_data : forall eigh argsort lstsq norm2 det ch solve cholesky fminbound (G : gen) (U : Type) (w : world G U (nd R)),
  eigh_contract eigh -> eigh_total eigh -> argsort_contract argsort -> lstsq_contract lstsq -> lstsq_total lstsq -> solve_contract solve -> solve_sound solve -> cholesky_contract cholesky -> fminbound_ok fminbound ->
  passes (test_rs_0 eigh argsort lstsq norm2 det ch) w /\
  passes (test_rs_data_train_pr_ubnd eigh argsort lstsq norm2 det ch solve cholesky fminbound) w /\
  passes (test_rs_data_train_pr_ubnd_2d eigh argsort lstsq norm2 det ch solve cholesky fminbound) w /\
  passes_or_hull ch (test_rs_data_train_pr_bnd eigh argsort lstsq norm2 det ch solve cholesky fminbound) w /\
  passes_or_hull ch (test_rs_data_train_pr_bnd_2d eigh argsort lstsq norm2 det ch solve cholesky fminbound) w /\
  (general G false 50 -> passes (test_rs_data_train_gp_ubnd eigh argsort lstsq norm2 det ch solve cholesky fminbound) w /\
                         passes (test_rs_data_train_gp_ubnd_2d eigh argsort lstsq norm2 det ch solve cholesky fminbound) w) /\
  (general G true 10 -> passes_or_hull ch (test_rs_data_train_gp_bnd eigh argsort lstsq norm2 det ch solve cholesky fminbound) w) /\
  (general G true 50 -> passes_or_hull ch (test_rs_data_train_gp_bnd_2d eigh argsort lstsq norm2 det ch solve cholesky fminbound) w).
Proof.
  intros eigh argsort lstsq norm2 det ch solve cholesky fminbound G U w HE HT HA HL HLT HS HS' HC HF.
  assert (T := fun bnd K part surf XX HK Hp Hs HX => data_test_ok (G := G) (U := U) eigh argsort lstsq norm2 det ch solve cholesky fminbound HE HT HA HL HLT HS HS' HC HF bnd K part surf XX w HK Hp Hs HX).
  assert (X1 : forall w : world G U (nd R), exists X w', normal2 10 3 w = (Ok X, w') /\ shape X = [10%nat; 3%nat]).
  { intros w1. destruct (normal2_ev G (U := U) (L := nd R) 10 3 w1) as (X & E & S & _). eauto. }
  assert (X2 : forall w : world G U (nd R), exists X w', uniform2 (-1) 1 10 3 w = (Ok X, w') /\ shape X = [10%nat; 3%nat]).
  { intros w1. destruct (uniform2_ev G (U := U) (L := nd R) (-1) 1 10 3 w1) as (X & E & S & _). eauto. }
  assert (X3 : forall w : world G U (nd R), exists X w', (dom _ <- seed 43; normal2 10 3) w = (Ok X, w') /\ shape X = [10%nat; 3%nat]) by (intros w1; rewrite seeded; apply X1).
  assert (X4 : forall w : world G U (nd R), exists X w', (dom _ <- seed 43; uniform2 (-1) 1 10 3) w = (Ok X, w') /\ shape X = [10%nat; 3%nat]) by (intros w1; rewrite seeded; apply X2).
  assert (PU : forall K part surf XX, (6 <= K)%nat -> match part with None => True | Some p => (1 <= p < 3)%Z end -> (surf = Some pr \/ surf = None /\ general G false K) -> (forall w : world G U (nd R), exists X w', XX w = (Ok X, w') /\ shape X = [10%nat; 3%nat]) ->
     passes (data_test eigh argsort lstsq norm2 det ch solve cholesky fminbound false K part surf XX) w).
  { intros K part surf XX HK Hp Hs HX. destruct (T false K part surf XX HK Hp Hs HX) as (r & w' & E & [->|(C & _)]); [exists w'; exact E|discriminate C]. }
  assert (PB : forall K part surf XX, (6 <= K)%nat -> match part with None => True | Some p => (1 <= p < 3)%Z end -> (surf = Some pr \/ surf = None /\ general G true K) -> (forall w : world G U (nd R), exists X w', XX w = (Ok X, w') /\ shape X = [10%nat; 3%nat]) ->
     passes_or_hull ch (data_test eigh argsort lstsq norm2 det ch solve cholesky fminbound true K part surf XX) w).
  { intros K part surf XX HK Hp Hs HX. destruct (T true K part surf XX HK Hp Hs HX) as (r & w' & E & [->|(_ & _ & C)]); exists r, w' || exists (Ok tt), w'; auto. }
  split; [exact (rs_0_ok eigh argsort lstsq norm2 det ch HE HT HA w)|].
  split; [apply PU; [lia|exact Logic.I|now left|exact X1]|]. split; [apply PU; [lia|lia|now left|exact X1]|]. split; [apply PB; [lia|exact Logic.I|now left|exact X2]|]. split; [apply PB; [lia|lia|now left|exact X1]|].
  split; [intros Q; split; apply PU; auto; lia|]. split; intros Q; apply PB; auto; lia.
Qed.
Print Assumptions C108_data.

(** The tests that evaluate the quadratic function at points of their own choosing, over the
    unbounded domain: the inputs X0 do not matter. *)
Theorem C108_functions : forall eigh argsort lstsq norm2 det B ch solve cholesky fminbound eig (delaunay : nd R -> res (list (list nat) * (nd R -> list Z))) (G : gen) (U : Type) (w : world G U (nd R)),
  eigh_contract eigh -> eigh_total eigh -> argsort_contract argsort -> eig_contract eig -> eig_total eig -> lstsq_contract lstsq -> lstsq_total lstsq -> solve_contract solve -> solve_sound solve -> cholesky_contract cholesky -> fminbound_ok fminbound ->
  passes (test_fun_ubnd_int eigh argsort lstsq norm2 det B ch eig delaunay) w /\
  passes (test_fun_ubnd_2d_int eigh argsort lstsq norm2 det B ch eig delaunay) w /\
  passes (test_rs_fun_train_pr_ubnd_2d eigh argsort lstsq norm2 det B ch solve cholesky fminbound eig) w /\
  (spanning 50 3 (gradient_at G false 50) ->
     passes (test_rs_fun_train_gp_ubnd eigh argsort lstsq norm2 det B ch solve cholesky fminbound eig) w /\
     passes (test_rs_fun_train_pr_ubnd eigh argsort lstsq norm2 det B ch solve cholesky fminbound eig) w /\
     passes (test_rs_fun_train_gp_ubnd_2d eigh argsort lstsq norm2 det B ch solve cholesky fminbound eig) w) /\
  test_rs_fun_train_pr_ubnd eigh argsort lstsq norm2 det B ch solve cholesky fminbound eig w = test_rs_fun_train_gp_ubnd eigh argsort lstsq norm2 det B ch solve cholesky fminbound eig w.
Proof.
  intros eigh argsort lstsq norm2 det B ch solve cholesky fminbound eig delaunay G U w HE HT HA HG HGT HL HLT HS HS' HC HF.
  assert (T := fun part surf => fun_test_ok (G := G) (U := U) eigh argsort lstsq norm2 det B ch solve cholesky fminbound eig delaunay HE HT HA HG HGT HL HLT HS HS' HC HF part surf w).
  split; [apply fun_int_ok; auto; lia|]. split; [apply fun_int_ok; auto; lia|]. split; [apply T; [lia|now left]|]. split; [|reflexivity]. intros SP. split; [apply T; auto|]. split; apply T; auto. lia.
Qed.
Print Assumptions C108_functions.

(** The integrals of a surface trained on data. *)
Theorem C108_integrals : forall eigh argsort lstsq norm2 det B ch solve cholesky fminbound eig (delaunay : nd R -> res (list (list nat) * (nd R -> list Z))) (G : gen) (U : Type) (w : world G U (nd R)),
  eigh_contract eigh -> eigh_total eigh -> argsort_contract argsort -> eig_contract eig -> eig_total eig -> lstsq_contract lstsq -> lstsq_total lstsq -> solve_contract solve -> solve_sound solve -> cholesky_contract cholesky -> fminbound_ok fminbound ->
  (general G false 50 -> passes (test_rs_ubnd_int eigh argsort lstsq norm2 det B ch solve cholesky fminbound eig delaunay) w /\
                         passes (test_rs_ubnd_2d_int eigh argsort lstsq norm2 det B ch solve cholesky fminbound eig delaunay) w) /\
  (general G true 50 -> passes (test_rs_bnd_int eigh argsort lstsq norm2 det B ch solve cholesky fminbound eig delaunay) w).
Proof.
  intros eigh argsort lstsq norm2 det B ch solve cholesky fminbound eig delaunay G U w HE HT HA HG HGT HL HLT HS HS' HC HF.
  assert (T := fun bnd part => rs_int_ok (G := G) (U := U) eigh argsort lstsq norm2 det B ch solve cholesky fminbound eig delaunay HE HT HA HG HGT HL HLT HS HS' HC HF bnd part w).
  split; intros (SP & NQ); [split; apply T; auto; left; (split; [reflexivity|lia])|apply T; auto].
Qed.
Print Assumptions C108_integrals.

(** Ten points on no quadric, one coordinate after the other, and gradients along the axes; the
    numbers drawn only depend on how many were drawn since the last seed. *)
Definition table : list R := [0; 0; 0;  1; 0; 0;  0; 1; 0;  0; 0; 1;  -1; 0; 0;  0; -1; 0;  0; 0; -1;  1; 1; 0;  1; 0; 1;  0; 1; 1].
Definition table_at (k : nat) : R := if Nat.ltb k 30 then nth k table 0 else if Nat.ltb 39 k then (if existsb (Nat.eqb k) [40; 44; 48; 200; 204; 208]%nat then 1 else 0) else 0.
Lemma table_unif : forall k, 0 <= (table_at k + 1) / 4 < 1.
Proof.
  intros k. assert (-1 <= table_at k <= 1); [|lra]. unfold table_at. destruct (Nat.ltb_spec k 30) as [H|_].
  - assert (F : Forall (fun r => -1 <= r <= 1) table) by (unfold table; repeat (apply Forall_cons; [lra|]); apply Forall_nil). exact (proj1 (Forall_forall _ _) F _ (nth_In table 0 H)).
  - destruct (Nat.ltb 39 k); [|lra]. destruct (existsb _ _); lra.
Qed.
Definition table_gen : gen := Gen nat (fun _ => 0%nat) (fun k => (table_at k, S k)) (fun k => ((table_at k + 1) / 4, S k)) (fun _ k => (0%nat, S k)) table_unif (fun hi k (H : (0 < hi)%nat) => H).
Lemma table_nstate : forall k s, @normal_state table_gen k s = (s + k)%nat.
Proof. induction k as [|k IH]; intros s; cbn; [lia|rewrite IH; cbn; lia]. Qed.
Lemma table_ustate : forall k s, @unif_state table_gen k s = (s + k)%nat.
Proof. induction k as [|k IH]; intros s; cbn; [lia|rewrite IH; cbn; lia]. Qed.
Lemma table_gradient : forall bnd K i j, gradient_at table_gen bnd K i j = table_at (K * 4 + (i * 3 + j)).
Proof. intros bnd K i j. unfold gradient_at, after_inputs, normal_at. destruct bnd; rewrite ?table_ustate, !table_nstate; cbn [g_normal g_seed table_gen fst]; f_equal; lia. Qed.
Lemma table_input : forall bnd i j, input_at table_gen bnd i j = if bnd then (table_at (i * 3 + j) - 1) / 2 else table_at (i * 3 + j).
Proof. intros bnd i j. unfold input_at, normal_at, unif_at. destruct bnd; rewrite ?table_ustate, ?table_nstate; cbn [g_normal g_unif g_seed table_gen fst Nat.add]; [field|reflexivity]. Qed.

Lemma table_general : forall bnd, general table_gen bnd 50 /\ general table_gen bnd 10.
Proof.
  intros bnd.
  assert (SP : forall K, K = 50%nat \/ K = 10%nat -> spanning K 3 (gradient_at table_gen bnd K)).
  { intros K HK v H. assert (E0 := H 0%nat). assert (E1 := H 1%nat). assert (E2 := H 2%nat). destruct HK as [->| ->]; specialize (E0 ltac:(lia)); specialize (E1 ltac:(lia)); specialize (E2 ltac:(lia)); cbn [sumf] in E0, E1, E2; rewrite !table_gradient in E0; rewrite !table_gradient in E1; rewrite !table_gradient in E2;
      cbn [Nat.mul Nat.add table_at Nat.ltb Nat.leb existsb Nat.eqb orb] in E0, E1, E2; intros [|[|[|j]]] Hj; try lia; lra. }
  assert (NQ : forall K, (10 <= K)%nat -> no_quadric K 3 (input_at table_gen bnd)).
  { intros K HK c g H q Z y. assert (E0 := Z 0%nat ltac:(lia)). assert (E1 := Z 1%nat ltac:(lia)). assert (E2 := Z 2%nat ltac:(lia)). assert (E3 := Z 3%nat ltac:(lia)). assert (E4 := Z 4%nat ltac:(lia)).
    assert (E5 := Z 5%nat ltac:(lia)). assert (E6 := Z 6%nat ltac:(lia)). assert (E7 := Z 7%nat ltac:(lia)). assert (E8 := Z 8%nat ltac:(lia)). assert (E9 := Z 9%nat ltac:(lia)). clear Z. unfold q in *. clear q.
    cbn [sumf] in *. rewrite !table_input in E0. rewrite !table_input in E1. rewrite !table_input in E2. rewrite !table_input in E3. rewrite !table_input in E4. rewrite !table_input in E5. rewrite !table_input in E6. rewrite !table_input in E7. rewrite !table_input in E8. rewrite !table_input in E9.
    cbn [Nat.mul Nat.add table_at Nat.ltb Nat.leb nth table] in E0, E1, E2, E3, E4, E5, E6, E7, E8, E9.
    assert (K0 : H 0%nat 0%nat = 0) by (destruct bnd; lra). assert (K1 : H 1%nat 1%nat = 0) by (destruct bnd; lra). assert (K2 : H 2%nat 2%nat = 0) by (destruct bnd; lra).
    assert (K3 : H 1%nat 0%nat = - H 0%nat 1%nat) by (destruct bnd; lra). assert (K4 : H 2%nat 0%nat = - H 0%nat 2%nat) by (destruct bnd; lra). assert (K5 : H 2%nat 1%nat = - H 1%nat 2%nat) by (destruct bnd; lra).
    assert (K6 : g 0%nat = 0) by (destruct bnd; lra). assert (K7 : g 1%nat = 0) by (destruct bnd; lra). assert (K8 : g 2%nat = 0) by (destruct bnd; lra). assert (K9 : c = 0) by (destruct bnd; lra).
    rewrite K0, K1, K2, K3, K4, K5, K6, K7, K8, K9. ring. }
  split; (split; [apply SP; auto|apply NQ; lia]).
Qed.

(** With this generator and the reference solvers every test of the theorems passes (those over
    the bounded domain with any hull that raises nothing). *)
Example C108_case : forall norm2 det B ch delaunay (w : world table_gen unit (nd R)), (forall Y, exists Q, ch Y = Ok Q) ->
  passes (test_rs_data_train_gp_ubnd_2d eigh_ref argsort_ref lstsq_ref norm2 det ch solve_ref cholesky_ref fmin_ref) w /\
  passes (test_rs_data_train_gp_bnd eigh_ref argsort_ref lstsq_ref norm2 det ch solve_ref cholesky_ref fmin_ref) w /\
  passes (test_rs_fun_train_gp_ubnd_2d eigh_ref argsort_ref lstsq_ref norm2 det B ch solve_ref cholesky_ref fmin_ref eigh_ref) w /\
  passes (test_rs_bnd_int eigh_ref argsort_ref lstsq_ref norm2 det B ch solve_ref cholesky_ref fmin_ref eigh_ref delaunay) w.
Proof.
  intros norm2 det B ch delaunay w HC.
  destruct (C108_data eigh_ref argsort_ref lstsq_ref norm2 det ch solve_ref cholesky_ref fmin_ref table_gen unit w eigh_ref_contract eigh_ref_total argsort_ref_contract lstsq_ref_contract lstsq_ref_total solve_ref_contract solve_ref_sound cholesky_ref_contract fmin_ref_ok) as (_ & _ & _ & _ & _ & A & A' & _).
  destruct (C108_functions eigh_ref argsort_ref lstsq_ref norm2 det B ch solve_ref cholesky_ref fmin_ref eigh_ref delaunay table_gen unit w eigh_ref_contract eigh_ref_total argsort_ref_contract eig_ref_contract eig_ref_total lstsq_ref_contract lstsq_ref_total solve_ref_contract solve_ref_sound cholesky_ref_contract fmin_ref_ok) as (_ & _ & _ & D & _).
  destruct (C108_integrals eigh_ref argsort_ref lstsq_ref norm2 det B ch solve_ref cholesky_ref fmin_ref eigh_ref delaunay table_gen unit w eigh_ref_contract eigh_ref_total argsort_ref_contract eig_ref_contract eig_ref_total lstsq_ref_contract lstsq_ref_total solve_ref_contract solve_ref_sound cholesky_ref_contract fmin_ref_ok) as (_ & E).
  split; [apply A, table_general|]. split; [|split; [apply D, (table_general false)|apply E, table_general]].
  destruct (A' (proj2 (table_general true))) as (r & w' & Q & [->|(Y & e & C & _)]); [exists w'; exact Q|]. destruct (HC Y) as (Z & EZ). rewrite EZ in C. discriminate C.
Qed.
