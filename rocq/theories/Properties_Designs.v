(** C33-C34: designs *)
From Coq Require Import String Reals Lra Lia List Arith ZArith Bool Classical.
From Verif Require Import Prelude Py NumArr Toy M_Misc M_Gradients M_Subspaces M_Quadrature M_QP P_QP Properties_QP M_Domains P_Domains Properties_Domains P_Zonotope Properties_Zonotope M_Designs P_Designs P_Multistart.
Import ListNotations.
Open Scope R_scope.

(** ** C33 *)
Theorem C33_interval_design : forall a b N, a < b -> exists D, interval_design a b (Z.of_nat N) = Ok D /\ shape D = [N; 1%nat] /\
  (forall i, (i < N)%nat -> D.[i, 0%nat] = a + (INR i + 1) * (b - a) / (INR N + 1)) /\
  (forall i, (i < N)%nat -> a < D.[i, 0%nat] < b) /\
  (forall i j, (i < j < N)%nat -> D.[i, 0%nat] < D.[j, 0%nat]) /\
  (let pt := fun i => match i with O => a | S i => if Nat.ltb i N then D.[i, 0%nat] else b end in
   forall i, (i <= N)%nat -> pt (S i) - pt i = (b - a) / (INR N + 1)).
Proof.
  intros a b N Hab. unfold interval_design, linspace, dimZ. destruct (Z.ltb_spec (Z.of_nat N + 2) 0) as [C|C]; [lia|]. cbn [rbind].
  replace (Z.to_nat (Z.of_nat N + 2)) with (S (S N)) by lia. unfold inner1. set (y := mk1 (S (S N)) _).
  replace (size y - 2)%nat with N by (unfold y, size; simpl; lia). unfold atleast_2d. cbn [shape mk1]. change (String.eqb "col" "row") with false. change (String.eqb "col" "col") with true.
  cbv iota. eexists. split; [reflexivity|]. split; [reflexivity|].
  assert (PN : 0 < INR N + 1) by (pose proof (pos_INR N); lra).
  assert (V : forall i, (i < N)%nat -> (mk2 N 1 (fun i _ => (mk1 N (fun i => y.[S i])).[i])).[i, 0%nat] = a + (INR i + 1) * (b - a) / (INR N + 1)).
  { intros i Hi. rewrite at_mk2 by lia. rewrite at_mk1 by lia. unfold y. rewrite at_mk1 by lia. cbn [Nat.eqb]. replace (S (S N) - 1)%nat with (S N) by lia.
    rewrite !S_INR. field. lra. }
  assert (IN : forall i, (i < N)%nat -> INR i + 1 < INR N + 1) by (intros i Hi; apply lt_INR in Hi; lra).
  assert (ST : 0 < (b - a) / (INR N + 1)) by (apply Rdiv_lt_0_compat; lra).
  split; [exact V|]. split; [|split].
  - intros i Hi. rewrite V by auto. pose proof (pos_INR i). specialize (IN i Hi).
    replace ((INR i + 1) * (b - a) / (INR N + 1)) with ((INR i + 1) * ((b - a) / (INR N + 1))) by (field; lra).
    split; [nra|]. apply Rlt_le_trans with (a + (INR N + 1) * ((b - a) / (INR N + 1))); [nra|]. apply Req_le. field. lra.
  - intros i j Hij. rewrite !V by lia. assert (INR i < INR j) by (apply lt_INR; lia).
    replace ((INR i + 1) * (b - a) / (INR N + 1)) with ((INR i + 1) * ((b - a) / (INR N + 1))) by (field; lra).
    replace ((INR j + 1) * (b - a) / (INR N + 1)) with ((INR j + 1) * ((b - a) / (INR N + 1))) by (field; lra). nra.
  - cbv zeta. intros i Hi.
    assert (PT : forall i, (i <= S N)%nat -> match i with O => a | S i => if Nat.ltb i N then (mk2 N 1 (fun i _ => (mk1 N (fun i => y.[S i])).[i])).[i, 0%nat] else b end = a + INR i * ((b - a) / (INR N + 1))).
    { intros [|k] Hk; [simpl; lra|]. destruct (Nat.ltb_spec k N) as [L|L]; [rewrite V by auto; rewrite S_INR; field; lra|]. replace k with N by lia. rewrite S_INR. field. lra. }
    rewrite (PT (S i)) by lia. rewrite (PT i) by lia. rewrite S_INR. ring.
Qed.
Print Assumptions C33_interval_design.
Theorem C33_negative_size : forall a b N, (N < -2)%Z -> interval_design a b N = Err ValueError.
Proof. intros a b N H. unfold interval_design, linspace, dimZ. destruct (Z.ltb_spec (N + 2) 0); [reflexivity|lia]. Qed.
Print Assumptions C33_negative_size.
Example C33_case : exists D, interval_design 0 8 3 = Ok D /\ shape D = [3; 1]%nat /\ D.[0%nat, 0%nat] = 2 /\ D.[1%nat, 0%nat] = 4 /\ D.[2%nat, 0%nat] = 6.
Proof.
  destruct (C33_interval_design 0 8 3 ltac:(lra)) as (D & E & S & V & _). exists D. split; [exact E|]. split; [exact S|]. rewrite !V by lia. simpl INR. repeat split; lra.
Qed.

(** ** C34 *)

(** d is the smallest squared distance among distinct design points and
    between design points and vertices *)
Definition smallest (vert : nd R) (Ny n N : nat) (y : nat -> R) (d : R) : Prop :=
  ((exists i j, (i < N)%nat /\ (j < N)%nat /\ i <> j /\ d = dsq n y i j) \/ (exists i j, (i < N)%nat /\ (j < Ny)%nat /\ d = vsq vert n y i j)) /\
  (forall i j, (i < N)%nat -> (j < N)%nat -> i <> j -> d <= dsq n y i j) /\ (forall i j, (i < N)%nat -> (j < Ny)%nat -> d <= vsq vert n y i j).

(** the value is minus the smaller of d and 10^10 (the shifted diagonal of the
    distance matrix takes part in the minimum) *)
Theorem C34_objective_partial : forall vert Ny n N (y : nat -> R) d, shape vert = [Ny; n] -> (0 < n)%nat -> (0 < N)%nat -> (0 < Ny)%nat ->
  smallest vert Ny n N y d -> maximin_obj vert (mk1 (N * n) y) = Ok (- Rmin d (10 ^ 10)) /\ (d <= 10 ^ 10 -> maximin_obj vert (mk1 (N * n) y) = Ok (- d)).
Proof.
  intros vert Ny n N y d SV Hn HN HV (D & D0 & D1).
  destruct (maximin_core vert Ny n N y SV Hn HN HV) as (i0 & j0 & i1 & j1 & g & Hi0 & Hj0 & Hi1 & Hj1 & M0 & M1 & E & _).
  rewrite E.
  assert (K : Rmin (psq n y i0 j0) (vsq vert n y i1 j1) = Rmin d (10 ^ 10)).
  { assert (A0 : Rmin d (10 ^ 10) <= psq n y i0 j0).
    { unfold psq. destruct (Nat.eqb_spec i0 j0) as [->|NE]; [apply Rmin_r|]. eapply Rle_trans; [apply Rmin_l|]. auto. }
    assert (A1 : Rmin d (10 ^ 10) <= vsq vert n y i1 j1) by (eapply Rle_trans; [apply Rmin_l|]; auto).
    apply Rle_antisym; [|now apply Rmin_glb]. apply Rmin_glb.
    - destruct D as [(i & j & Hi & Hj & NE & ->)|(i & j & Hi & Hj & ->)].
      + eapply Rle_trans; [apply Rmin_l|]. specialize (M0 i j Hi Hj). unfold psq in M0 at 2. destruct (Nat.eqb_spec i j); [congruence|exact M0].
      + eapply Rle_trans; [apply Rmin_r|]. auto.
    - eapply Rle_trans; [apply Rmin_l|]. specialize (M0 0%nat 0%nat HN HN). unfold psq in M0 at 2. exact M0. }
  rewrite K. split; auto. intros Hd. now rewrite Rmin_left.
Qed.
Print Assumptions C34_objective_partial.
(** one point 2*10^5 away from the only vertex: the value is -10^10, the squared
    distance 4*10^10 *)
Theorem C34_objective_refuted : exists vert y d, shape vert = [1; 1]%nat /\ smallest vert 1 1 1 y d /\ exists v, maximin_obj vert (mk1 1 y) = Ok v /\ v <> - d.
Proof.
  exists (mat_of [[0]]), (fun _ => 200000), (4 * 10 ^ 10). split; [reflexivity|].
  assert (SM : smallest (mat_of [[0]]) 1 1 1 (fun _ => 200000) (4 * 10 ^ 10)).
  { assert (E : forall i j, (j < 1)%nat -> vsq (mat_of [[0]]) 1 (fun _ => 200000) i j = 4 * 10 ^ 10).
    { intros i j Hj. replace j with 0%nat by lia. unfold vsq. cbn [sumf]. change ((mat_of [[0]]).[0%nat, 0%nat]) with 0. lra. }
    split; [|split].
    - right. exists 0%nat, 0%nat. split; [lia|]. split; [lia|]. symmetry. apply E. lia.
    - intros i j Hi Hj NE. lia.
    - intros i j Hi Hj. rewrite E by auto. lra. }
  split; [exact SM|]. destruct (C34_objective_partial (mat_of [[0]]) 1 1 1 _ _ eq_refl ltac:(lia) ltac:(lia) ltac:(lia) SM) as [E _]. simpl (1 * 1)%nat in E.
  exists (- Rmin (4 * 10 ^ 10) (10 ^ 10)). split; [exact E|]. rewrite Rmin_right by lra. lra.
Qed.
Print Assumptions C34_objective_refuted.

(** the closest pair is unique: two design points, or a design point and a vertex *)
Definition closest_points (vert : nd R) (Ny n N : nat) (y : nat -> R) (i0 j0 : nat) : Prop :=
  (i0 < N)%nat /\ (j0 < N)%nat /\ i0 <> j0 /\
  (forall i j, (i < N)%nat -> (j < N)%nat -> i <> j -> ~ (i = i0 /\ j = j0) -> ~ (i = j0 /\ j = i0) -> dsq n y i0 j0 < dsq n y i j) /\
  (forall i j, (i < N)%nat -> (j < Ny)%nat -> dsq n y i0 j0 < vsq vert n y i j).
Definition closest_vertex (vert : nd R) (Ny n N : nat) (y : nat -> R) (i0 j0 : nat) : Prop :=
  (i0 < N)%nat /\ (j0 < Ny)%nat /\
  (forall i j, (i < N)%nat -> (j < N)%nat -> i <> j -> vsq vert n y i0 j0 < dsq n y i j) /\
  (forall i j, (i < N)%nat -> (j < Ny)%nat -> ~ (i = i0 /\ j = j0) -> vsq vert n y i0 j0 < vsq vert n y i j).
(** y with t added to one coordinate *)
Definition bump (y : nat -> R) (q : nat) (t : R) : nat -> R := fun k => if Nat.eqb k q then y k + t else y k.

(** *** locality *)
Definition near (P : R -> Prop) : Prop := exists del, 0 < del /\ forall t, Rabs t < del -> P t.
Lemma near_and : forall P Q, near P -> near Q -> near (fun t => P t /\ Q t).
Proof.
  intros P Q (d & D & HP) (e & E & HQ). exists (Rmin d e). split; [now apply Rmin_glb_lt|]. intros t Ht. split; [apply HP|apply HQ]; eapply Rlt_le_trans; eauto; [apply Rmin_l|apply Rmin_r].
Qed.
Lemma near_imp : forall P Q : R -> Prop, (forall t, P t -> Q t) -> near P -> near Q.
Proof. intros P Q H (d & D & HP). exists d. split; auto. Qed.
Lemma near_true : forall P : R -> Prop, (forall t, P t) -> near P.
Proof. intros P H. exists 1. split; [lra|]. auto. Qed.
Lemma near_all : forall K (P : nat -> R -> Prop), (forall k, (k < K)%nat -> near (P k)) -> near (fun t => forall k, (k < K)%nat -> P k t).
Proof.
  induction K; intros P H; [apply near_true; intros; lia|].
  apply (near_imp (fun t => (forall k, (k < K)%nat -> P k t) /\ P K t)).
  - intros t [A B] k Hk. destruct (Nat.eq_dec k K) as [->|]; auto. apply A. lia.
  - apply near_and; auto.
Qed.
Definition quad (A B C t : R) : R := A + t * B + t * t * C.
Lemma near_quad : forall A B C A' B' C', A < A' -> near (fun t => quad A B C t < quad A' B' C' t).
Proof.
  intros A B C A' B' C' H. set (K := Rabs (B - B') + Rabs (C - C') + 1).
  assert (HK : 0 < K) by (unfold K; pose proof (Rabs_pos (B - B')); pose proof (Rabs_pos (C - C')); lra).
  exists (Rmin 1 ((A' - A) / K)). split; [apply Rmin_glb_lt; [lra|apply Rdiv_lt_0_compat; lra]|]. intros t Ht.
  assert (T1 : Rabs t < 1) by (eapply Rlt_le_trans; [exact Ht|apply Rmin_l]).
  assert (T2 : Rabs t * K < A' - A).
  { assert (T : Rabs t < (A' - A) / K) by (eapply Rlt_le_trans; [exact Ht|apply Rmin_r]). apply (Rmult_lt_compat_r K) in T; auto. unfold Rdiv in T. rewrite Rmult_assoc, Rinv_l in T by lra. lra. }
  assert (S1 : t * (B - B') <= Rabs t * Rabs (B - B')) by (rewrite <- Rabs_mult; apply Rle_abs).
  assert (S2 : t * t * (C - C') <= Rabs t * Rabs (C - C')).
  { eapply Rle_trans; [apply Rle_abs|]. rewrite !Rabs_mult. pose proof (Rabs_pos t). pose proof (Rabs_pos (C - C')). apply Rmult_le_compat_r; auto. nra. }
  unfold quad. unfold K in T2. pose proof (Rabs_pos t). nra.
Qed.
Lemma near_deriv : forall F A B C, near (fun t => F t = quad A B C t) -> derivable_pt_lim F 0 B.
Proof.
  intros F A B C (d & D & H).
  assert (Q : derivable_pt_lim (quad A B C) 0 B).
  { intros eps He. assert (KP : 0 < eps / (Rabs C + 1)) by (apply Rdiv_lt_0_compat; [auto|pose proof (Rabs_pos C); lra]). exists (mkposreal _ KP). intros h Hh Hl. simpl in Hl.
    replace ((quad A B C (0 + h) - quad A B C 0) / h - B) with (h * C) by (unfold quad; field; auto). rewrite Rabs_mult. pose proof (Rabs_pos C). pose proof (Rabs_pos h).
    apply Rle_lt_trans with (Rabs h * (Rabs C + 1)); [nra|]. apply (Rmult_lt_compat_r (Rabs C + 1)) in Hl; [|lra]. unfold Rdiv in Hl. rewrite Rmult_assoc, Rinv_l in Hl by lra. lra. }
  intros eps He. destruct (Q eps He) as (e & Hq). assert (MP : 0 < Rmin e d) by (apply Rmin_glb_lt; [apply cond_pos|auto]).
  exists (mkposreal _ MP). intros h Hh Hl. simpl in Hl. rewrite Rplus_0_l, (H h) by (eapply Rlt_le_trans; [exact Hl|apply Rmin_r]).
  rewrite (H 0) by (rewrite Rabs_R0; auto). specialize (Hq h Hh ltac:(eapply Rlt_le_trans; [exact Hl|apply Rmin_l])). now rewrite Rplus_0_l in Hq.
Qed.

(** *** distances along one coordinate *)
Lemma sum_quad : forall n u e t, sumf n (fun k => (u k + t * e k) * (u k + t * e k)) = quad (sumf n (fun k => u k * u k)) (2 * sumf n (fun k => u k * e k)) (sumf n (fun k => e k * e k)) t.
Proof.
  intros n u e t. unfold quad. rewrite (sumf_ext n _ (fun k => u k * u k + (2 * t) * (u k * e k) + (t * t) * (e k * e k))) by (intros; ring).
  rewrite !sumf_plus, !sumf_scal_l. ring.
Qed.
Definition one (a i : nat) : R := if Nat.eqb i a then 1 else 0.
Lemma bump_at : forall n y a b i k t, (k < n)%nat -> (b < n)%nat -> bump y (a * n + b) t (i * n + k)%nat = y (i * n + k)%nat + t * (one a i * kron_delta b k).
Proof.
  intros n y a b i k t Hk Hb. unfold bump, one, kron_delta. rewrite index_split by auto. rewrite (Nat.eqb_sym b k). destruct (Nat.eqb i a), (Nat.eqb k b); simpl; ring.
Qed.
Lemma dsq_bump : forall n y a b i j, (b < n)%nat -> exists C, forall t, dsq n (bump y (a * n + b) t) i j =
  quad (dsq n y i j) (2 * ((y (i * n + b)%nat - y (j * n + b)%nat) * (one a i - one a j))) C t.
Proof.
  intros n y a b i j Hb. exists (sumf n (fun k => (one a i - one a j) * kron_delta b k * ((one a i - one a j) * kron_delta b k))). intros t. unfold dsq at 1.
  rewrite (sumf_ext n _ (fun k => ((y (i * n + k)%nat - y (j * n + k)%nat) + t * ((one a i - one a j) * kron_delta b k)) * ((y (i * n + k)%nat - y (j * n + k)%nat) + t * ((one a i - one a j) * kron_delta b k)))).
  2:{ intros k Hk. rewrite !bump_at by auto. ring. }
  rewrite (sum_quad n (fun k => y (i * n + k)%nat - y (j * n + k)%nat) (fun k => (one a i - one a j) * kron_delta b k)). unfold dsq. do 2 f_equal.
  rewrite (sumf_ext n _ (fun k => kron_delta b k * ((y (i * n + k)%nat - y (j * n + k)%nat) * (one a i - one a j)))) by (intros; ring). now rewrite sumf_kd_l.
Qed.
Lemma vsq_bump : forall vert n y a b i j, (b < n)%nat -> exists C, forall t, vsq vert n (bump y (a * n + b) t) i j =
  quad (vsq vert n y i j) (2 * ((y (i * n + b)%nat - vert.[j, b]) * one a i)) C t.
Proof.
  intros vert n y a b i j Hb. exists (sumf n (fun k => one a i * kron_delta b k * (one a i * kron_delta b k))). intros t. unfold vsq at 1.
  rewrite (sumf_ext n _ (fun k => ((y (i * n + k)%nat - vert.[j, k]) + t * (one a i * kron_delta b k)) * ((y (i * n + k)%nat - vert.[j, k]) + t * (one a i * kron_delta b k)))).
  2:{ intros k Hk. rewrite !bump_at by auto. ring. }
  rewrite (sum_quad n (fun k => y (i * n + k)%nat - vert.[j, k]) (fun k => one a i * kron_delta b k)). unfold vsq. do 2 f_equal.
  rewrite (sumf_ext n _ (fun k => kron_delta b k * ((y (i * n + k)%nat - vert.[j, k]) * one a i))) by (intros; ring). now rewrite sumf_kd_l.
Qed.

(** if T (a quadratic in t) stays the smallest distance near 0, the objective is locally - min(T, 10^10) *)
Lemma obj_local : forall vert Ny n N y q A B C F, shape vert = [Ny; n] -> (0 < n)%nat -> (0 < N)%nat -> (0 < Ny)%nat ->
  (forall t, maximin_obj vert (mk1 (N * n) (bump y q t)) = Ok (F t)) ->
  near (fun t => smallest vert Ny n N (bump y q t) (quad A B C t)) -> A <> 10 ^ 10 ->
  derivable_pt_lim F 0 (if Rlt_dec A (10 ^ 10) then - B else 0).
Proof.
  intros vert Ny n N y q A B C F SV Hn HN HV HF NS NA.
  assert (NF : near (fun t => F t = - Rmin (quad A B C t) (10 ^ 10))).
  { revert NS. apply near_imp. intros t HS. destruct (C34_objective_partial vert Ny n N _ _ SV Hn HN HV HS) as [E _]. rewrite HF in E. now injection E as ->. }
  destruct (Rlt_dec A (10 ^ 10)) as [L|L].
  - apply (near_deriv F (- A) (- B) (- C)). generalize (near_and _ _ NF (near_quad A B C (10 ^ 10) 0 0 L)). apply near_imp.
    intros t [-> H]. unfold quad in H at 2. rewrite Rmin_left by lra. unfold quad. ring.
  - apply (near_deriv F (- 10 ^ 10) 0 0). generalize (near_and _ _ NF (near_quad (10 ^ 10) 0 0 A B C ltac:(lra))). apply near_imp.
    intros t [-> H]. unfold quad in H at 1. rewrite Rmin_right by lra. unfold quad. ring.
Qed.

(** wherever the closest pair is unique (and not exactly 10^5 apart) the
    supplied gradient is the derivative of the objective in every coordinate *)
Theorem C34_gradient_partial : forall vert Ny n N (y : nat -> R) i0 j0, shape vert = [Ny; n] -> (0 < n)%nat -> (0 < N)%nat -> (0 < Ny)%nat ->
  (closest_points vert Ny n N y i0 j0 /\ dsq n y i0 j0 <> 10 ^ 10) \/ (closest_vertex vert Ny n N y i0 j0 /\ vsq vert n y i0 j0 <> 10 ^ 10) ->
  exists g, maximin_grad vert (mk1 (N * n) y) = Ok g /\ shape g = [(N * n)%nat] /\
    forall q F, (q < N * n)%nat -> (forall t, maximin_obj vert (mk1 (N * n) (bump y q t)) = Ok (F t)) -> derivable_pt_lim F 0 (g.[q]).
Proof.
  intros vert Ny n N y i0 j0 SV Hn HN HV H.
  destruct (maximin_core vert Ny n N y SV Hn HN HV) as (i & j & i1 & j1 & g & Hi & Hj & Hi1 & Hj1 & M0 & M1 & E & EG & SG & VG).
  exists g. split; [exact EG|]. split; [exact SG|]. intros q F Hq HF.
  set (a := (q / n)%nat). set (b := (q mod n)%nat). assert (Hb : (b < n)%nat) by (apply Nat.mod_upper_bound; lia).
  assert (Ha : (a < N)%nat) by (apply Nat.div_lt_upper_bound; nia).
  assert (Eq : q = (a * n + b)%nat) by (unfold a, b; rewrite (Nat.div_mod q n) at 1 by lia; lia).
  rewrite Eq in HF |- *. rewrite VG by auto. clear VG.
  destruct H as [((H1 & H2 & NE & HP & HQ) & NA)|((H1 & H2 & HP & HQ) & NA)].
  - (* two design points *)
    destruct (dsq_bump n y a b i0 j0 Hb) as (C & EC).
    assert (NS : near (fun t => smallest vert Ny n N (bump y (a * n + b) t) (quad (dsq n y i0 j0) (2 * ((y (i0 * n + b)%nat - y (j0 * n + b)%nat) * (one a i0 - one a j0))) C t))).
    { set (T := quad _ _ C).
      apply (near_imp (fun t => (forall k, (k < N)%nat -> forall l, (l < N)%nat -> k <> l -> T t <= dsq n (bump y (a * n + b) t) k l) /\ (forall k, (k < N)%nat -> forall l, (l < Ny)%nat -> T t <= vsq vert n (bump y (a * n + b) t) k l))).
      - intros t [A1 A2]. split; [left; exists i0, j0; repeat split; auto; symmetry; apply EC|]. split; auto.
      - apply near_and; apply near_all; intros k Hk; apply near_all; intros l Hl.
        + destruct (Nat.eq_dec k l) as [D|D]; [apply near_true; intros t C'; congruence|].
          destruct (classic ((k = i0 /\ l = j0) \/ (k = j0 /\ l = i0))) as [[[-> ->]|[-> ->]]|NP].
          * apply near_true. intros t _. rewrite EC. unfold T. lra.
          * apply near_true. intros t _. rewrite dsq_sym, EC. unfold T. lra.
          * destruct (dsq_bump n y a b k l Hb) as (C' & EC'). eapply near_imp; [|apply (near_quad (dsq n y i0 j0) (2 * ((y (i0 * n + b)%nat - y (j0 * n + b)%nat) * (one a i0 - one a j0))) C (dsq n y k l) (2 * ((y (k * n + b)%nat - y (l * n + b)%nat) * (one a k - one a l))) C'); apply HP; auto].
            intros t Ht _. rewrite EC'. unfold T. lra.
        + destruct (vsq_bump vert n y a b k l Hb) as (C' & EC'). eapply near_imp; [|apply (near_quad (dsq n y i0 j0) (2 * ((y (i0 * n + b)%nat - y (j0 * n + b)%nat) * (one a i0 - one a j0))) C (vsq vert n y k l) (2 * ((y (k * n + b)%nat - vert.[l, b]) * one a k)) C'); apply HQ; auto].
          intros t Ht. rewrite EC'. unfold T. lra. }
    pose proof (obj_local vert Ny n N y _ _ _ _ F SV Hn HN HV HF NS NA) as DL.
    assert (PL : psq n y i j < vsq vert n y i1 j1).
    { specialize (M0 i0 j0 H1 H2). unfold psq in M0 at 2. destruct (Nat.eqb_spec i0 j0); [congruence|]. specialize (HQ i1 j1 Hi1 Hj1). lra. }
    destruct (Rlt_dec (psq n y i j) (vsq vert n y i1 j1)) as [_|C0]; [|lra].
    destruct (Rlt_dec (dsq n y i0 j0) (10 ^ 10)) as [L|L].
    + (* the pair found is {i0, j0} *)
      assert (NIJ : i <> j).
      { intros ->. specialize (M0 i0 j0 H1 H2). unfold psq in M0. rewrite Nat.eqb_refl in M0. destruct (Nat.eqb_spec i0 j0); [congruence|]. lra. }
      assert (PR : (i = i0 /\ j = j0) \/ (i = j0 /\ j = i0)).
      { apply NNPP. intros NP. assert (dsq n y i0 j0 < dsq n y i j) by (apply HP; auto; tauto).
        specialize (M0 i0 j0 H1 H2). unfold psq in M0. destruct (Nat.eqb_spec i0 j0); [congruence|]. destruct (Nat.eqb_spec i j); [congruence|]. lra. }
      replace (- (if (a =? j)%nat then 2 * (y (j * n + b)%nat - y (i * n + b)%nat) else if (a =? i)%nat then 2 * (y (i * n + b)%nat - y (j * n + b)%nat) else 0))
        with (- (2 * ((y (i0 * n + b)%nat - y (j0 * n + b)%nat) * (one a i0 - one a j0)))); [exact DL|].
      unfold one. rewrite (Nat.eqb_sym i0 a), (Nat.eqb_sym j0 a). destruct PR as [[-> ->]|[-> ->]]; destruct (Nat.eqb_spec a i0), (Nat.eqb_spec a j0); try congruence; ring.
    + (* beyond 10^5: the diagonal wins *)
      assert (i = j) as ->.
      { apply NNPP. intros D. specialize (M0 0%nat 0%nat HN HN). unfold psq in M0. destruct (Nat.eqb_spec i j); [congruence|]. rewrite Nat.eqb_refl in M0.
        assert (dsq n y i0 j0 <= dsq n y i j); [|lra].
        destruct (classic ((i = i0 /\ j = j0) \/ (i = j0 /\ j = i0))) as [[[-> ->]|[-> ->]]|NP]; [lra|rewrite (dsq_sym n y j0 i0); lra|left; apply HP; auto; tauto]. }
      replace (- _) with 0; [exact DL|]. destruct (Nat.eqb a j); ring.
  - (* a design point and a vertex *)
    destruct (vsq_bump vert n y a b i0 j0 Hb) as (C & EC).
    assert (NS : near (fun t => smallest vert Ny n N (bump y (a * n + b) t) (quad (vsq vert n y i0 j0) (2 * ((y (i0 * n + b)%nat - vert.[j0, b]) * one a i0)) C t))).
    { set (T := quad _ _ C).
      apply (near_imp (fun t => (forall k, (k < N)%nat -> forall l, (l < N)%nat -> k <> l -> T t <= dsq n (bump y (a * n + b) t) k l) /\ (forall k, (k < N)%nat -> forall l, (l < Ny)%nat -> T t <= vsq vert n (bump y (a * n + b) t) k l))).
      - intros t [A1 A2]. split; [right; exists i0, j0; repeat split; auto; symmetry; apply EC|]. split; auto.
      - apply near_and; apply near_all; intros k Hk; apply near_all; intros l Hl.
        + destruct (Nat.eq_dec k l) as [D|D]; [apply near_true; intros t C'; congruence|].
          destruct (dsq_bump n y a b k l Hb) as (C' & EC'). eapply near_imp; [|apply (near_quad (vsq vert n y i0 j0) (2 * ((y (i0 * n + b)%nat - vert.[j0, b]) * one a i0)) C (dsq n y k l) (2 * ((y (k * n + b)%nat - y (l * n + b)%nat) * (one a k - one a l))) C'); apply HP; auto].
          intros t Ht _. rewrite EC'. unfold T. lra.
        + destruct (classic (k = i0 /\ l = j0)) as [[-> ->]|NP]; [apply near_true; intros t; rewrite EC; unfold T; lra|].
          destruct (vsq_bump vert n y a b k l Hb) as (C' & EC'). eapply near_imp; [|apply (near_quad (vsq vert n y i0 j0) (2 * ((y (i0 * n + b)%nat - vert.[j0, b]) * one a i0)) C (vsq vert n y k l) (2 * ((y (k * n + b)%nat - vert.[l, b]) * one a k)) C'); apply HQ; auto].
          intros t Ht. rewrite EC'. unfold T. lra. }
    pose proof (obj_local vert Ny n N y _ _ _ _ F SV Hn HN HV HF NS NA) as DL.
    assert (PR : i1 = i0 /\ j1 = j0).
    { apply NNPP. intros NP. specialize (HQ i1 j1 Hi1 Hj1 NP). specialize (M1 i0 j0 H1 H2). lra. }
    destruct PR as [-> ->].
    destruct (Rlt_dec (vsq vert n y i0 j0) (10 ^ 10)) as [L|L].
    + destruct (Rlt_dec (psq n y i j) (vsq vert n y i0 j0)) as [C0|_].
      { exfalso. unfold psq in C0. destruct (Nat.eqb_spec i j) as [D|D]; [lra|]. specialize (HP i j Hi Hj D). lra. }
      replace (- (if (a =? i0)%nat then _ else 0)) with (- (2 * ((y (i0 * n + b)%nat - vert.[j0, b]) * one a i0))); [exact DL|].
      unfold one. rewrite (Nat.eqb_sym i0 a). destruct (Nat.eqb a i0); ring.
    + assert (PD : psq n y i j = 10 ^ 10 /\ i = j).
      { specialize (M0 0%nat 0%nat HN HN). unfold psq in *. rewrite Nat.eqb_refl in M0. destruct (Nat.eqb_spec i j) as [D|D]; [auto|]. specialize (HP i j Hi Hj D). lra. }
      destruct PD as [PD ->]. rewrite PD. destruct (Rlt_dec (10 ^ 10) (vsq vert n y i0 j0)) as [_|C0]; [|lra].
      replace (- _) with 0; [exact DL|]. destruct (Nat.eqb a j); ring.
Qed.
Print Assumptions C34_gradient_partial.

(** ** C35 for maximin_design *)
Section MaximinState.
  Context {G : gen} {U L : Type}.
  Notation W := (world G U L).
  Variables (B : backend) (convex_hull : nd R -> res (nd R)).

  (** once the hull is known: a failing run, or an answer read off the best of
      the three runs *)
  Lemma maximin_run : forall vert V n eqs k (w : W), shape vert = [V; n] -> convex_hull vert = Ok eqs ->
    let solve := fun y0 => sp_minimize B (maximin_problem vert eqs k n y0) in
    (exists i e, (i < 3)%nat /\ fails k n solve "SLSQP failed with message" (g_seed G 42) i e /\
       maximin_design B convex_hull vert (Z.of_nat k) w = (Err e, set_rng w (after k n (g_seed G 42) (S i)))) \/
    ((forall i, (i < 3)%nat -> exists v, good k n solve (g_seed G 42) i v) /\
     exists o, best k n solve (g_seed G 42) 3 (10 ^ 10) None o /\
       maximin_design B convex_hull vert (Z.of_nat k) w =
         (match o with Some v => match mr_x v with XArr x => reshape [k; n] x | XFloat _ => Err AttributeError end | None => Err AttributeError end, w)).
  Proof.
    intros vert V n eqs k w SV EH solve.
    assert (RUN : maximin_design B convex_hull vert (Z.of_nat k) w =
      match multistart 3 (dom y0 <- normal2 k n; mlift (solve y0)) "SLSQP failed with message" (10 ^ 10) None (set_rng w (g_seed G 42)) with
      | (Ok o, w') => (match o with Some v => match mr_x v with XArr x => reshape [k; n] x | XFloat _ => Err AttributeError end | None => Err AttributeError end, set_rng w' (rng w))
      | (Err e, w') => (Err e, w') end).
    { unfold maximin_design. unfold mbind at 1, mlift at 1. unfold shape2. rewrite SV. unfold mbind at 1, mlift at 1. rewrite EH. unfold mbind at 1, mlift at 1, dimZ.
      destruct (Z.ltb_spec (Z.of_nat k) 0) as [C|C]; [lia|]. rewrite Nat2Z.id. unfold mbind at 1, get_state at 1. unfold mbind at 1, seed, set_state at 1. unfold mbind at 1. fold solve.
      destruct (multistart 3 _ _ _ _ _) as [[o|e] w']; reflexivity. }
    rewrite RUN. destruct (multistart_spec k n solve "SLSQP failed with message" 3 (10 ^ 10) None (set_rng w (g_seed G 42))) as [(i & e & Hi & F & E)|(H & o & E & Bt)].
    - left. exists i, e. split; [auto|]. split; [exact F|]. rewrite E. reflexivity.
    - right. split; [exact H|]. exists o. split; [exact Bt|]. rewrite E. cbn [set_rng rng]. destruct w. reflexivity.
  Qed.
  Lemma maximin_early : forall vert N,
    (exists e, forall w : W, maximin_design B convex_hull vert N w = (Err e, w)) \/
    exists V n eqs k, shape vert = [V; n] /\ convex_hull vert = Ok eqs /\ N = Z.of_nat k.
  Proof.
    intros vert N. unfold maximin_design. destruct (shape2 vert) as [[V n]|e] eqn:ES; [|left; exists e; reflexivity].
    destruct (convex_hull vert) as [eqs|e] eqn:EH; [|left; exists e; reflexivity].
    unfold dimZ. destruct (Z.ltb_spec N 0) as [C|C]; [left; exists ValueError; reflexivity|]. right.
    exists V, n, eqs, (Z.to_nat N). split; [unfold shape2 in ES; destruct (shape vert) as [|a [|b [|]]]; congruence|]. split; [reflexivity|]. now rewrite Z2Nat.id.
  Qed.
End MaximinState.

(** a successful call leaves the whole state as it was; whatever the state
    before, the outcome (result or exception) is the same *)
Theorem C35_maximin_design_partial : forall (G : gen) (U L : Type) B convex_hull vert N,
  (forall (w w' : world G U L) D, maximin_design B convex_hull vert N w = (Ok D, w') -> w' = w) /\
  (forall w1 w2 : world G U L, fst (maximin_design B convex_hull vert N w1) = fst (maximin_design B convex_hull vert N w2)).
Proof.
  intros G U L B ch vert N. destruct (maximin_early (G := G) (U := U) (L := L) B ch vert N) as [(e & E)|(V & n & eqs & k & SV & EH & ->)].
  { split; intros; [rewrite E in H; discriminate|now rewrite !E]. }
  split.
  - intros w w' D H. destruct (maximin_run (G := G) (U := U) (L := L) B ch vert V n eqs k w SV EH) as [(i & e & _ & _ & E)|(_ & o & _ & E)]; rewrite E in H; [discriminate|congruence].
  - intros w1 w2. destruct (maximin_run (G := G) (U := U) (L := L) B ch vert V n eqs k w1 SV EH) as [(i & e & Hi & F & ->)|(H & o & Bt & ->)];
    destruct (maximin_run (G := G) (U := U) (L := L) B ch vert V n eqs k w2 SV EH) as [(i' & e' & Hi' & F' & ->)|(H' & o' & Bt' & ->)]; cbn [fst].
    + f_equal. exact (fails_det _ _ _ _ _ _ _ _ _ F F').
    + exfalso. exact (fails_good _ _ _ _ _ _ _ _ Hi F H').
    + exfalso. exact (fails_good _ _ _ _ _ _ _ _ Hi' F' H).
    + now rewrite (best_det _ _ _ _ _ _ _ _ _ Bt Bt').
Qed.
Print Assumptions C35_maximin_design_partial.
(** a run that fails: the exception leaves the global stream seeded with 42
    and advanced by the draws made, whatever it was before *)
Theorem C35_maximin_failure : forall (G : gen) (U L : Type) B convex_hull vert V n eqs k i e, shape vert = [V; n] -> convex_hull vert = Ok eqs -> (i < 3)%nat ->
  fails k n (fun y0 => sp_minimize B (maximin_problem vert eqs k n y0)) "SLSQP failed with message" (g_seed G 42) i e ->
  forall w : world G U L, maximin_design B convex_hull vert (Z.of_nat k) w = (Err e, set_rng w (after k n (g_seed G 42) (S i))).
Proof.
  intros G U L B ch vert V n eqs k i e SV EH Hi F w.
  destruct (maximin_run (G := G) (U := U) (L := L) B ch vert V n eqs k w SV EH) as [(i' & e' & Hi' & F' & ->)|(H' & o' & Bt' & _)].
  - now rewrite (fails_index _ _ _ _ _ _ _ _ _ F F'), (fails_det _ _ _ _ _ _ _ _ _ F F').
  - exfalso. exact (fails_good _ _ _ _ _ _ _ _ Hi F H').
Qed.
Print Assumptions C35_maximin_failure.
(** witness: the solver fails at once; the stream at 0 ends up at 44 *)
Definition tri : nd R := mat_of [[0; 0]; [1; 0]; [0; 1]].
Definition tri_eqs : nd R := mat_of [[-1; 0; 0]; [0; -1; 0]; [1; 1; -1]].
Definition const_backend (r : mres) : backend := Backend false (fun _ => Err ValueError) (fun _ => Ok r) (fun _ => Err ValueError).
Theorem C35_state_after_exception_refuted : exists B ch e w', maximin_design (G := toy_gen) (U := unit) (L := unit) B ch tri 1 (toy_world tt) = (Err e, w') /\ rng w' <> rng (@toy_world unit unit tt).
Proof.
  exists (const_backend (MR false (XFloat 0) 0)), (fun _ => Ok tri_eqs), (Exc "SLSQP failed with message"), (set_rng (toy_world tt) (after 1 2 (g_seed toy_gen 42) 1)).
  split; [|unfold after; simpl; lia].
  apply (C35_maximin_failure toy_gen unit unit (const_backend (MR false (XFloat 0) 0)) (fun _ => Ok tri_eqs) tri 3 2 tri_eqs 1 0); [reflexivity|reflexivity|lia|].
  split; [intros; lia|]. right. eexists. split; [reflexivity|]. split; reflexivity.
Qed.
Print Assumptions C35_state_after_exception_refuted.

(** ** C26 for maximin_design: what its constraint means *)
Lemma maximin_cons : forall vert eqs F n N y0 x, shape eqs = [F; S n] -> (0 < n)%nat ->
  mp_feas (maximin_problem vert eqs N n y0) (N * n) x <-> forall i f, (i < N)%nat -> (f < F)%nat -> 0 <= sumf n (fun j => eqs.[f, j] * x (i * n + j)%nat) - eqs.[f, n].
Proof.
  intros vert eqs F n N y0 x SE Hn. unfold mp_feas, maximin_problem. cbn [mp_bounds mp_cons].
  assert (NR : nrows eqs = F) by (rewrite (nrows_shape2 _ eqs _ _ SE); reflexivity). assert (NC : ncols eqs = S n) by (rewrite (ncols_shape2 _ eqs _ _ SE); reflexivity).
  set (A := kron (eye N) (cols_slice eqs 0 n)).
  assert (SA : shape A = [(N * F)%nat; (N * n)%nat]).
  { unfold A, kron, cols_slice. rewrite NR, NC. cbn [shape mk2]. unfold nrows, ncols. cbn [shape mk2 eye nth]. do 3 f_equal. lia. }
  set (b := mk1 (N * nrows eqs) _).
  destruct (bcast1_same _ _ _ Rminus (mk1 (N * F) (fun i => sumf (N * n) (fun l => A.[i, l] * (mk1 (N * n) x).[l]))) b (N * F) eq_refl
     ltac:(unfold b; rewrite NR; reflexivity)) as (r & Er & Sr & Vr).
  assert (EV : (do Ax <- npdot A (mk1 (N * n) x); bcast Rminus Ax b) = Ok r) by (rewrite (npdot21 A (mk1 (N * n) x) (N * F) (N * n) SA eq_refl); exact Er).
  assert (V : forall i f, (i < N)%nat -> (f < F)%nat -> r.[(i * F + f)%nat] = sumf n (fun j => eqs.[f, j] * x (i * n + j)%nat) - eqs.[f, n]).
  { intros i f Hi Hf. rewrite Vr by nia. unfold b. rewrite !at_mk1 by (rewrite ?NR; nia). rewrite NR.
    replace ((i * F + f) mod F)%nat with f by (rewrite Nat.add_comm, Nat.mod_add, Nat.mod_small by lia; reflexivity). f_equal; [|ring].
    rewrite sumf_prod, (sumf_single N i).
    - apply sumf_ext. intros j Hj. rewrite at_mk1 by nia. f_equal. unfold A, kron. rewrite at_mk2.
      assert (E1 : nrows (cols_slice eqs 0 n) = F) by (unfold cols_slice; rewrite NR; reflexivity).
      assert (E2 : ncols (cols_slice eqs 0 n) = n) by (unfold cols_slice; rewrite NC; cbn [ncols shape mk2 nth]; lia). rewrite E1, E2.
      rewrite !Nat.div_add_l, (Nat.div_small f), (Nat.div_small j) by lia. rewrite !Nat.add_0_r.
      replace ((i * F + f) mod F)%nat with f by (rewrite Nat.add_comm, Nat.mod_add, Nat.mod_small by lia; reflexivity).
      replace ((i * n + j) mod n)%nat with j by (rewrite Nat.add_comm, Nat.mod_add, Nat.mod_small by lia; reflexivity).
      unfold eye. rewrite at_mk2 by lia. rewrite kd_same. unfold cols_slice. rewrite at_mk2 by (rewrite ?NR, ?NC; lia). rewrite Rmult_1_l. reflexivity.
    - exact Hi.
    - intros a Ha Da. apply sumf_zero. intros j Hj. rewrite at_mk1 by nia. unfold A, kron. rewrite at_mk2.
      assert (E1 : nrows (cols_slice eqs 0 n) = F) by (unfold cols_slice; rewrite NR; reflexivity).
      assert (E2 : ncols (cols_slice eqs 0 n) = n) by (unfold cols_slice; rewrite NC; cbn [ncols shape mk2 nth]; lia). rewrite E1, E2.
      rewrite !Nat.div_add_l, (Nat.div_small f), (Nat.div_small j) by lia. rewrite !Nat.add_0_r. unfold eye. rewrite at_mk2 by lia. rewrite kd_diff by auto. ring. }
  split.
  - intros [_ H] i f Hi Hf. destruct (H _ _ eq_refl) as (v & q & E & Sv & P). rewrite EV in E. injection E as <-. rewrite Sr in Sv. injection Sv as <-. rewrite <- V by auto. apply P. nia.
  - intros H. split.
    + intros j p HI. destruct j; discriminate.
    + intros g jg E. injection E as <- <-. exists r, (N * F)%nat. split; [exact EV|]. split; [exact Sr|]. intros i Hi. destruct (Nat.eq_dec F 0) as [->|HF]; [nia|].
      rewrite (Nat.div_mod i F) by auto. rewrite (Nat.mul_comm F). assert (i mod F < F)%nat by (apply Nat.mod_upper_bound; auto). assert (i / F < N)%nat by (apply Nat.div_lt_upper_bound; nia).
      rewrite V by auto. apply H; auto.
Qed.
(** the constraint describes the hull reflected through the origin, block by block *)
Theorem C26_maximin_constraint : forall vert V n eqs N y0 x, hull_of vert V n eqs -> (0 < n)%nat ->
  (mp_feas (maximin_problem vert eqs N n y0) (N * n) x <-> forall i, (i < N)%nat -> conv vert V n (fun j => - x (i * n + j)%nat)).
Proof.
  intros vert V n eqs N y0 x (F & SE & H) Hn. rewrite (maximin_cons vert eqs F n N y0 x SE Hn).
  assert (E : forall i f, sumf n (fun j => eqs.[f, j] * - x (i * n + j)%nat) = - sumf n (fun j => eqs.[f, j] * x (i * n + j)%nat)) by (intros; rewrite <- sumf_opp; apply sumf_ext; intros; ring).
  split.
  - intros Q i Hi. apply H. intros f Hf. cbv beta. rewrite E. specialize (Q i f Hi Hf). lra.
  - intros Q i f Hi Hf. pose proof (proj1 (H _) (Q i Hi) f Hf) as K. cbv beta in K. rewrite E in K. lra.
Qed.
Print Assumptions C26_maximin_constraint.

(** what SLSQP promises when it reports success: a point of the given size
    meeting the constraints *)
Definition feasible_answers (mn : mprob -> res mres) (P : mprob) (n : nat) : Prop :=
  forall r, mn P = Ok r -> mr_success r = true -> exists x, mr_x r = XArr x /\ shape x = [n] /\ mp_feas P n (fun j => x.[j]).

(** the design has N rows; the reflections of its points lie in the hull of
    vert, so the points do when vert is symmetric; its objective is the best of
    the three runs *)
Theorem C26_maximin_design_partial : forall (G : gen) (U L : Type) B convex_hull vert V n eqs N (w w' : world G U L) D,
  shape vert = [V; n] -> (0 < n)%nat -> convex_hull vert = Ok eqs -> hull_of vert V n eqs ->
  (forall y0, feasible_answers (sp_minimize B) (maximin_problem vert eqs N n y0) (N * n)) ->
  maximin_design B convex_hull vert (Z.of_nat N) w = (Ok D, w') ->
  shape D = [N; n] /\ (forall i, (i < N)%nat -> conv vert V n (fun j => - D.[i, j])) /\
  ((forall v, (v < V)%nat -> exists v', (v' < V)%nat /\ forall j, (j < n)%nat -> vert.[v', j] = - vert.[v, j]) ->
   forall i, (i < N)%nat -> conv vert V n (fun j => D.[i, j])).
Proof.
  intros G U L B ch vert V n eqs N w w' D SV Hn EH HH HF H.
  destruct (maximin_run (G := G) (U := U) (L := L) B ch vert V n eqs N w SV EH) as [(i & e & _ & _ & E)|(_ & o & Bt & E)]; rewrite E in H; [discriminate|].
  destruct Bt as [[-> _]|(k & v & Hk & -> & [Gv Sv] & _)]; [discriminate|]. destruct (HF _ v Gv Sv) as (x & Ex & Sx & Fx). rewrite Ex in H.
  assert (EX : reshape [N; n] x = Ok D) by congruence. clear H.
  assert (ED : shape D = [N; n] /\ forall i j, (i < N)%nat -> (j < n)%nat -> D.[i, j] = x.[(i * n + j)%nat]).
  { destruct (reshape_ok _ [N; n] x) as (Z & E2 & S2 & V2); [unfold size; rewrite Sx; cbn [prodn]; lia|]. assert (Z = D) as -> by congruence. split; [exact S2|].
    intros i j Hi Hj. rewrite V2 by (repeat constructor; auto). rewrite Sx. cbn [unravel ravel prodn at_ nth]. rewrite Nat.div_1_r. f_equal. f_equal. lia. }
  destruct ED as [SD VD]. split; [exact SD|].
  assert (C1 : forall i, (i < N)%nat -> conv vert V n (fun j => - D.[i, j])).
  { intros i Hi. destruct (proj1 (C26_maximin_constraint vert V n eqs N _ _ HH Hn) Fx i Hi) as (lam & L0 & L1 & Lx). exists lam. split; auto. split; auto.
    intros j Hj. rewrite VD by auto. now apply Lx. }
  split; [exact C1|]. intros Sym i Hi. destruct (conv_neg vert V n _ Sym (C1 i Hi)) as (lam & L0 & L1 & Lx). exists lam. split; auto. split; auto. intros j Hj. rewrite <- Lx by auto. ring.
Qed.
Print Assumptions C26_maximin_design_partial.

(** a triangle in the positive quadrant: with every contract kept, the design
    point returned is (-1/4, -1/4), outside the triangle *)
Lemma tri_hull : hull_of tri 3 2 tri_eqs.
Proof.
  exists 3%nat. split; [reflexivity|]. intros x. split.
  - intros (lam & L0 & L1 & Lx) f Hf. pose proof (L0 0%nat ltac:(lia)). pose proof (L0 1%nat ltac:(lia)). pose proof (L0 2%nat ltac:(lia)).
    pose proof (Lx 0%nat ltac:(lia)) as X0. pose proof (Lx 1%nat ltac:(lia)) as X1. unfold tri in X0, X1. cbn [sumf at_ mat_of mk2 nth] in X0, X1, L1.
    destruct f as [|[|[|f]]]; [| | |lia]; unfold tri_eqs; cbn [sumf at_ mat_of mk2 nth]; lra.
  - intros H. pose proof (H 0%nat ltac:(lia)) as H0. pose proof (H 1%nat ltac:(lia)) as H1. pose proof (H 2%nat ltac:(lia)) as H2. unfold tri_eqs in *. cbn [sumf at_ mat_of mk2 nth] in *.
    exists (fun v => match v with O => 1 - x 0%nat - x 1%nat | S O => x 0%nat | _ => x 1%nat end). split; [intros [|[|v]] Hv; lra|]. split; [cbn [sumf]; lra|].
    intros [|[|j]] Hj; [| |lia]; unfold tri; cbn [sumf at_ mat_of mk2 nth]; ring.
Qed.
Theorem C26_maximin_design_refuted : exists B w' D, (forall y0, feasible_answers (sp_minimize B) (maximin_problem tri tri_eqs 1 2 y0) 2) /\ hull_of tri 3 2 tri_eqs /\
  maximin_design (G := toy_gen) (U := unit) (L := unit) B (fun _ => Ok tri_eqs) tri 1 (toy_world tt) = (Ok D, w') /\ ~ conv tri 3 2 (fun j => D.[0%nat, j]).
Proof.
  set (x := vec_of [- / 4; - / 4]). exists (const_backend (MR true (XArr x) (-1))), (toy_world tt).
  assert (FA : forall y0, feasible_answers (sp_minimize (const_backend (MR true (XArr x) (-1)))) (maximin_problem tri tri_eqs 1 2 y0) 2).
  { intros y0 r Er _. injection Er as <-. exists x. split; [reflexivity|]. split; [reflexivity|]. apply (C26_maximin_constraint tri 3 2 tri_eqs 1 y0 _ tri_hull); [lia|].
    intros i Hi. replace i with 0%nat by lia. exists (fun v => match v with O => / 2 | _ => / 4 end). split; [intros [|v] _; lra|]. split; [cbn [sumf]; lra|].
    intros [|[|j]] Hj; [| |lia]; unfold tri, x; cbn [sumf at_ mat_of vec_of mk1 mk2 nth Nat.mul Nat.add]; lra. }
  destruct (maximin_run (G := toy_gen) (U := unit) (L := unit) (const_backend (MR true (XArr x) (-1))) (fun _ => Ok tri_eqs) tri 3 2 tri_eqs 1 (toy_world tt) eq_refl eq_refl) as [(i & e & _ & [_ F] & _)|(_ & o & Bt & E)].
  { exfalso. destruct F as [F|(v & F & Sv & _)]; [discriminate|]. injection F as <-. discriminate. }
  destruct Bt as [[-> Bt]|(k & v & _ & -> & [Gv _] & _)].
  { exfalso. specialize (Bt 0%nat _ ltac:(lia) ltac:(split; reflexivity)). cbn [mr_fun] in Bt. lra. }
  injection Gv as <-. cbn [mr_x] in E.
  assert (exists D, reshape [1; 2]%nat x = Ok D /\ D.[0%nat, 0%nat] = - / 4) as (D & ED & VD) by (eexists; split; reflexivity). rewrite ED in E. exists D.
  split; [exact FA|]. split; [exact tri_hull|]. split; [exact E|]. intros (lam & L0 & L1 & Lx). pose proof (Lx 0%nat ltac:(lia)) as X0. unfold tri in X0. cbn [sumf at_ mat_of mk2 nth] in X0.
  pose proof (L0 1%nat ltac:(lia)). change (D.[0%nat, 0%nat] = 0 + lam 0%nat * 0 + lam 1%nat * 1 + lam 2%nat * 0) in X0. rewrite VD in X0. lra.
Qed.
Print Assumptions C26_maximin_design_refuted.

(** vertices 0 and 1: the points 0.3 and 0.5 are the closest pair; with 0.2 and
    0.5 it is the first point and the vertex 0 *)
Example C34_case : closest_points (mat_of [[0]; [1]]) 2 1 2 (fun k => match k with O => 3 / 10 | _ => 5 / 10 end) 0 1 /\
  closest_vertex (mat_of [[0]; [1]]) 2 1 2 (fun k => match k with O => 2 / 10 | _ => 5 / 10 end) 0 0.
Proof.
  split.
  - split; [lia|]. split; [lia|]. split; [lia|]. split.
    + intros i j Hi Hj NE N1 N2. exfalso. lia.
    + intros i j Hi Hj. destruct i as [|[|i]]; [| |lia]; (destruct j as [|[|j]]; [| |lia]); unfold dsq, vsq; cbn [sumf at_ mat_of mk2 nth Nat.mul Nat.add]; lra.
  - split; [lia|]. split; [lia|]. split.
    + intros i j Hi Hj NE. destruct i as [|[|i]]; [| |lia]; (destruct j as [|[|j]]; [| |lia]); try lia; unfold dsq, vsq; cbn [sumf at_ mat_of mk2 nth Nat.mul Nat.add]; lra.
    + intros i j Hi Hj N1. destruct i as [|[|i]]; [| |lia]; (destruct j as [|[|j]]; [| |lia]); try lia; unfold dsq, vsq; cbn [sumf at_ mat_of mk2 nth Nat.mul Nat.add]; lra.
Qed.
(** a square, symmetric about 0: the design stays in the square and the stream at 0 *)
Definition sqv : nd R := mat_of [[1; 1]; [1; -1]; [-1; 1]; [-1; -1]].
Example C35_case : exists D, maximin_design (G := toy_gen) (U := unit) (L := unit) (const_backend (MR true (XArr (vec_of [/ 2; / 4])) (-1))) (fun _ => Ok sq_eqs) sqv 1 (toy_world tt) = (Ok D, toy_world tt) /\
  D.[0%nat, 0%nat] = / 2 /\ D.[0%nat, 1%nat] = / 4 /\ hull_of sqv 4 2 sq_eqs.
Proof.
  set (x := vec_of [/ 2; / 4]).
  destruct (maximin_run (G := toy_gen) (U := unit) (L := unit) (const_backend (MR true (XArr x) (-1))) (fun _ => Ok sq_eqs) sqv 4 2 sq_eqs 1 (toy_world tt) eq_refl eq_refl) as [(i & e & _ & [_ F] & _)|(_ & o & Bt & E)].
  { exfalso. destruct F as [F|(v & F & Sv & _)]; [discriminate|]. injection F as <-. discriminate. }
  destruct Bt as [[-> Bt]|(k & v & _ & -> & [Gv _] & _)].
  { exfalso. specialize (Bt 0%nat _ ltac:(lia) ltac:(split; reflexivity)). cbn [mr_fun] in Bt. lra. }
  injection Gv as <-. cbn [mr_x] in E. assert (exists D, reshape [1; 2]%nat x = Ok D /\ D.[0%nat, 0%nat] = / 2 /\ D.[0%nat, 1%nat] = / 4) as (D & ED & V0 & V1) by (eexists; split; [reflexivity|split; reflexivity]).
  rewrite ED in E. exists D. split; [exact E|]. split; [exact V0|]. split; [exact V1|]. apply sq_hull; [reflexivity| |].
  - intros v j Hv Hj. destruct v as [|[|[|[|v]]]]; [| | | |lia]; (destruct j as [|[|j]]; [| |lia]); unfold sqv; cbn [at_ mat_of mk2 nth]; lra.
  - intros a b Ha Hb. unfold sqv. destruct Ha as [->| ->], Hb as [->| ->]; [exists 0%nat|exists 1%nat|exists 2%nat|exists 3%nat]; (split; [lia|split; reflexivity]).
Qed.
