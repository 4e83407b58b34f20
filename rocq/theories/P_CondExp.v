(** conditional_expectations on the index arrays that inverse produces *)
From Coq Require Import String Reals Lra Lia List Arith ZArith Bool.
From Verif Require Import Prelude Py NumArr M_Misc M_RespSurf M_SimRunners M_Gradients M_Subspaces M_Quadrature M_QP M_Domains M_Designs M_ASRS P_Misc.
Import ListNotations.
Open Scope R_scope.

Lemma to_nat_INR : forall n, to_nat (INR n) = n.
Proof. intros n. unfold to_nat. rewrite Int_part_INR. apply Nat2Z.id. Qed.

Lemma list_max_is : forall (l : list nat) Q, (forall x, In x l -> (x < Q)%nat) -> (forall i, (i < Q)%nat -> In i l) -> (0 < Q)%nat -> list_max l = (Q - 1)%nat.
Proof.
  intros l Q H1 H2 HQ. apply Nat.le_antisymm.
  - apply list_max_le. apply Forall_forall. intros x Hx. specialize (H1 x Hx). lia.
  - assert (A := H2 (Q - 1)%nat ltac:(lia)). assert (B := proj1 (list_max_le l (list_max l)) (Nat.le_refl _)). rewrite Forall_forall in B. now apply B.
Qed.

Lemma mapr_finite : forall l, (forall i, (i < List.length l)%nat -> exists r, nth i l NaN = Fin r) ->
  exists r, mapr finite l = Ok r /\ List.length r = List.length l /\ forall i, (i < List.length l)%nat -> nth i l NaN = Fin (nth i r 0).
Proof.
  induction l as [|a l IH]; intros H; cbn [mapr].
  - exists []. split; auto. split; auto. simpl; intros; lia.
  - destruct (H 0%nat) as (x & Ex); [simpl; lia|]. cbn [nth] in Ex. subst a. cbn [finite rbind].
    destruct IH as (r & E & EL & EV). { intros i Hi. apply (H (S i)). simpl; lia. }
    rewrite E. cbn [rbind]. exists (x :: r). split; auto. split; [simpl; lia|]. intros [|i] Hi; cbn [nth]; auto. apply EV. simpl in Hi; lia.
Qed.

Lemma cond_exp_groups : forall F ind T Q (g : nat -> nat), shape F = [T; 1%nat] -> shape ind = [T; 1%nat] ->
  (forall k, (k < T)%nat -> ind.[k, 0%nat] = INR (g k)) -> (forall k, (k < T)%nat -> (g k < Q)%nat) ->
  (forall i, (i < Q)%nat -> exists k, (k < T)%nat /\ g k = i) -> (0 < T)%nat ->
  let pick i (h : nat -> R) := sumf T (fun k => if Nat.eqb (g k) i then h k else 0) in
  exists E V, cond_exp F ind = Ok (E, V) /\ shape E = [Q; 1%nat] /\ shape V = [Q; 1%nat] /\
  forall i, (i < Q)%nat -> E.[i, 0%nat] = pick i (fun k => F.[k, 0%nat]) / pick i (fun _ => 1) /\
    V.[i, 0%nat] = pick i (fun k => (F.[k, 0%nat] - E.[i, 0%nat]) * (F.[k, 0%nat] - E.[i, 0%nat])) / pick i (fun _ => 1).
Proof.
  intros F ind T Q g SF SI HI HQ HC HT pick. unfold cond_exp.
  rewrite (nrows_shape2 _ _ _ _ SF), (nrows_shape2 _ _ _ _ SI).
  set (fl := map (fun i => F.[i, 0%nat]) (seq 0 T)). set (il := map (fun i => to_nat (ind.[i, 0%nat])) (seq 0 T)).
  assert (Lf : List.length fl = T) by (unfold fl; now rewrite map_length, seq_length).
  assert (Li : List.length il = T) by (unfold il; now rewrite map_length, seq_length).
  assert (Nf : forall k, (k < T)%nat -> nth k fl 0 = F.[k, 0%nat]).
  { intros k Hk. unfold fl. now rewrite nth_map_seq. }
  assert (Ni : forall k, (k < T)%nat -> nth k il 0%nat = g k).
  { intros k Hk. unfold il. rewrite nth_map_seq by auto. rewrite HI by auto. apply to_nat_INR. }
  assert (HQ0 : (0 < Q)%nat) by (specialize (HQ 0%nat HT); lia).
  assert (INil : forall i, In i il <-> (i < Q)%nat).
  { intros i. split.
    - intros H. apply (In_nth _ _ 0%nat) in H. destruct H as (k & Hk & <-). rewrite Li in Hk. rewrite Ni by auto. auto.
    - intros H. destruct (HC i H) as (k & Hk & <-). rewrite <- Ni by auto. apply nth_In. lia. }
  assert (MX : list_max il = (Q - 1)%nat) by (apply list_max_is; auto; intros; now apply INil).
  destruct (cond_exp_ok fl il) as (Ef & Vf & EC & LE & LV & VAL).
  { intros E. rewrite E in Li. simpl in Li. lia. } { congruence. }
  rewrite EC. cbn [rbind]. rewrite MX in LE, LV, VAL. replace (S (Q - 1)) with Q in * by lia.
  assert (VAL' : forall i, (i < Q)%nat -> nth i Ef NaN = Fin (grp_mean fl il i) /\ nth i Vf NaN = Fin (grp_var fl il i)).
  { intros i Hi. destruct (VAL i) as [A B]; [lia|]. destruct (in_dec Nat.eq_dec i il) as [_|C]; [auto|]. exfalso. apply C. now apply INil. }
  destruct (mapr_finite Ef) as (E & E1 & E2 & E3). { intros i Hi. rewrite LE in Hi. destruct (VAL' i Hi) as [-> _]. eauto. }
  destruct (mapr_finite Vf) as (V & V1 & V2 & V3). { intros i Hi. rewrite LV in Hi. destruct (VAL' i Hi) as [_ ->]. eauto. }
  rewrite E1. cbn [rbind]. rewrite V1. cbn [rbind]. rewrite E2, LE, V2, LV. eexists _, _. split; [reflexivity|]. split; [reflexivity|]. split; [reflexivity|].
  intros i Hi. rewrite !at_mk2.
  assert (PC : grp_count il i = pick i (fun _ => 1)). { unfold grp_count, pick. rewrite Li. apply sumf_ext. intros k Hk. now rewrite Ni. }
  assert (EM : nth i E 0 = grp_mean fl il i). { rewrite LE in E3. assert (A := E3 i Hi). destruct (VAL' i Hi) as [B _]. rewrite B in A. now injection A. }
  assert (EV : nth i V 0 = grp_var fl il i). { rewrite LV in V3. assert (A := V3 i Hi). destruct (VAL' i Hi) as [_ B]. rewrite B in A. now injection A. }
  rewrite EV, EM. split.
  - unfold grp_mean. rewrite PC. f_equal. unfold grp_sum, pick. rewrite Li. apply sumf_ext. intros k Hk. now rewrite Ni, Nf.
  - unfold grp_var at 1. rewrite PC. f_equal. unfold pick. rewrite Li. apply sumf_ext. intros k Hk. now rewrite Ni, Nf.
Qed.

(** K consecutive samples for each of NY nodes, then NV single points *)
Lemma cond_exp_design : forall F ind NY K NV, shape F = [(NY * K + NV)%nat; 1%nat] -> shape ind = [(NY * K + NV)%nat; 1%nat] ->
  (forall i l, (i < NY)%nat -> (l < K)%nat -> ind.[(i * K + l)%nat, 0%nat] = INR i) ->
  (forall j, (j < NV)%nat -> ind.[(NY * K + j)%nat, 0%nat] = INR (NY + j)) -> (0 < K)%nat -> (0 < NY)%nat ->
  exists E V, cond_exp F ind = Ok (E, V) /\ shape E = [(NY + NV)%nat; 1%nat] /\ shape V = [(NY + NV)%nat; 1%nat] /\
  (forall i, (i < NY)%nat -> E.[i, 0%nat] = sumf K (fun l => F.[(i * K + l)%nat, 0%nat]) / INR K /\
    V.[i, 0%nat] = sumf K (fun l => (F.[(i * K + l)%nat, 0%nat] - E.[i, 0%nat]) * (F.[(i * K + l)%nat, 0%nat] - E.[i, 0%nat])) / INR K) /\
  (forall j, (j < NV)%nat -> E.[(NY + j)%nat, 0%nat] = F.[(NY * K + j)%nat, 0%nat] /\ V.[(NY + j)%nat, 0%nat] = 0).
Proof.
  intros F ind NY K NV SF SI H1 H2 HK HY. set (T := (NY * K + NV)%nat) in *.
  set (g := fun k => if Nat.ltb k (NY * K) then (k / K)%nat else (NY + (k - NY * K))%nat).
  assert (G1 : forall i l, (i < NY)%nat -> (l < K)%nat -> g (i * K + l)%nat = i).
  { intros i l Hi Hl. unfold g. destruct (Nat.ltb_spec (i * K + l) (NY * K)); [|nia]. rewrite Nat.div_add_l by lia. rewrite Nat.div_small by lia. lia. }
  assert (G2 : forall j, (j < NV)%nat -> g (NY * K + j)%nat = (NY + j)%nat).
  { intros j Hj. unfold g. destruct (Nat.ltb_spec (NY * K + j) (NY * K)); lia. }
  assert (CASE : forall k, (k < T)%nat -> (exists i l, (i < NY)%nat /\ (l < K)%nat /\ k = (i * K + l)%nat) \/ (exists j, (j < NV)%nat /\ k = (NY * K + j)%nat)).
  { intros k Hk. destruct (Nat.lt_ge_cases k (NY * K)) as [L|L].
    - left. exists (k / K)%nat, (k mod K)%nat. split; [apply Nat.div_lt_upper_bound; lia|]. split; [apply Nat.mod_upper_bound; lia|]. rewrite (Nat.div_mod k K) at 1 by lia. lia.
    - right. exists (k - NY * K)%nat. unfold T in Hk. lia. }
  destruct (cond_exp_groups F ind T (NY + NV) g SF SI) as (E & V & EE & SE & SV & VAL).
  - intros k Hk. destruct (CASE k Hk) as [(i & l & Hi & Hl & ->)|(j & Hj & ->)].
    + rewrite G1, H1 by auto. reflexivity.
    + rewrite G2, H2 by auto. reflexivity.
  - intros k Hk. destruct (CASE k Hk) as [(i & l & Hi & Hl & ->)|(j & Hj & ->)]; [rewrite G1 by auto; lia|rewrite G2 by auto; lia].
  - intros i Hi. destruct (Nat.lt_ge_cases i NY) as [L|L].
    + exists (i * K + 0)%nat. split; [unfold T; nia|]. now apply G1.
    + exists (NY * K + (i - NY))%nat. split; [unfold T; lia|]. rewrite G2 by lia. lia.
  - unfold T. nia.
  - exists E, V. split; auto. split; auto. split; auto.
    assert (P1 : forall i (h : nat -> R), (i < NY)%nat -> sumf T (fun k => if Nat.eqb (g k) i then h k else 0) = sumf K (fun l => h (i * K + l)%nat)).
    { intros i h Hi. unfold T. rewrite sumf_split, sumf_prod. rewrite (sumf_zero NV).
      2: { intros j Hj. rewrite G2 by auto. destruct (Nat.eqb_spec (NY + j) i); [lia|auto]. }
      rewrite Rplus_0_r. rewrite (sumf_single NY i _ Hi).
      - apply sumf_ext. intros l Hl. now rewrite G1, Nat.eqb_refl.
      - intros i' Hi' Ne. apply sumf_zero. intros l Hl. rewrite G1 by auto. destruct (Nat.eqb_spec i' i); [contradiction|auto]. }
    assert (P2 : forall j (h : nat -> R), (j < NV)%nat -> sumf T (fun k => if Nat.eqb (g k) (NY + j) then h k else 0) = h (NY * K + j)%nat).
    { intros j h Hj. unfold T. rewrite sumf_split, sumf_prod. rewrite (sumf_zero NY).
      2: { intros i Hi. apply sumf_zero. intros l Hl. rewrite G1 by auto. destruct (Nat.eqb_spec i (NY + j)); [lia|auto]. }
      rewrite Rplus_0_l. rewrite (sumf_single NV j _ Hj).
      - now rewrite G2, Nat.eqb_refl.
      - intros j' Hj' Ne. rewrite G2 by auto. destruct (Nat.eqb_spec (NY + j') (NY + j)); [lia|auto]. }
    split.
    + intros i Hi. destruct (VAL i ltac:(lia)) as [A B]. rewrite B, A. rewrite !P1 by auto. rewrite sumf_const, Rmult_1_r. auto.
    + intros j Hj. destruct (VAL (NY + j)%nat ltac:(lia)) as [A B]. rewrite B, A. rewrite !P2 by auto. split; [field|]. unfold Rdiv. rewrite Rinv_1. ring.
Qed.
