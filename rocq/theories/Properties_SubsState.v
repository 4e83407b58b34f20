(** Final statements for subspaces.py, continued: C18-C20, C53-C55. *)
From Coq Require Import String Reals Lra Lia List Arith ZArith Bool.
From Verif Require Import Prelude Py NumArr LinAlg Lsq Sorting Spectral Det M_Misc M_Gradients M_RespSurf M_Subspaces
  P_Misc P_LocalLinear P_Subspaces P_Estimators P_Partition P_Bootstrap P_SubsState P_SubsLive EighRef Toy Properties_Subspaces Properties_Gradients.
Import ListNotations.
Open Scope R_scope.

(** ** C18 *)
(** After any history of calls (caught exceptions included), a call that
    returns leaves W1, W2 equal to the first n and the remaining columns of the
    current eigenvecs.  Missing for C18: the state after a call that raises. *)
Theorem C18_after_success_partial : forall eigh argsort lstsq norm2 det (G : gen) (U : Type) (w : world G U (nd R)) h c ws',
  eigh_contract eigh -> argsort_contract argsort ->
  exec eigh argsort lstsq norm2 det c (run eigh argsort lstsq norm2 det h (w, subs_new)) = (Ok tt, ws') ->
  exists V A B m n, s_eigenvecs (snd ws') = Some V /\ s_W1 (snd ws') = Some A /\ s_W2 (snd ws') = Some B /\
    shape V = [m; m] /\ (1 <= n <= m)%nat /\ shape A = [m; n] /\ shape B = [m; (m - n)%nat] /\
    (forall i j, (i < m)%nat -> (j < n)%nat -> A.[i, j] = V.[i, j]) /\
    (forall i j, (i < m)%nat -> (j < m - n)%nat -> B.[i, j] = V.[i, (n + j)%nat]).
Proof.
  intros eigh argsort lstsq norm2 det G U w h c ws' HE HA H.
  assert (Hwf : wf_state (snd (run eigh argsort lstsq norm2 det h (w, subs_new)))) by (apply run_wf; auto; apply new_wf).
  destruct (exec_ok_consistent eigh argsort lstsq norm2 det HE HA c _ ws' Hwf H) as (Hc & HN).
  unfold consistent in Hc. destruct (s_eigenvecs (snd ws')) as [V|]; [|congruence].
  destruct Hc as (m & n & A & B & E1 & E2 & S1 & S2 & S3 & S4 & S5 & S6). exists V, A, B, m, n. repeat (split; auto).
Qed.
Print Assumptions C18_after_success_partial.

(** What a raising call does: it never touches W1 and W2, a raising partition
    touches nothing, and consistency survives unless a raising compute replaced
    the eigenvectors. *)
Theorem C18_raising_calls_partial : forall eigh argsort lstsq norm2 det (G : gen) (U : Type) (w : world G U (nd R)) h c x ws',
  eigh_contract eigh -> argsort_contract argsort ->
  let ws := run eigh argsort lstsq norm2 det h (w, subs_new) in
  exec eigh argsort lstsq norm2 det c ws = (Err x, ws') ->
  s_W1 (snd ws') = s_W1 (snd ws) /\ s_W2 (snd ws') = s_W2 (snd ws) /\
  (forall n, c = Partition n -> ws' = ws) /\
  (s_eigenvecs (snd ws') = s_eigenvecs (snd ws) -> consistent (snd ws) -> consistent (snd ws')) /\
  (* even then W1, W2 split an orthogonal matrix: the one of the last call that returned *)
  ((s_W1 (snd ws') = None /\ s_W2 (snd ws') = None) \/
   exists m n V A B, s_W1 (snd ws') = Some A /\ s_W2 (snd ws') = Some B /\ splits m n V A B /\
     forall a b, (a < m)%nat -> (b < m)%nat -> sumf m (fun i => V.[i, a] * V.[i, b]) = if Nat.eqb a b then 1 else 0).
Proof.
  intros eigh argsort lstsq norm2 det G U w h c x ws' HE HA ws H.
  destruct (exec_err_keeps eigh argsort lstsq norm2 det HE HA c ws x ws' H) as (E1 & E2).
  split; auto. split; auto. split; [|split].
  - intros n ->. cbn [exec] in H. apply (ss_partition_err _ _ _ _ H).
  - intros E3 Hc. unfold consistent in *. rewrite E1, E2, E3. exact Hc.
  - assert (HS : split_some (snd ws)) by (apply run_split_some; auto; [apply new_wf|left; auto]).
    destruct HS as [(N1 & N2)|(m & n & V & A & B & Q1 & Q2 & Q3 & Q4)].
    + left. rewrite E1, E2. auto.
    + right. exists m, n, V, A, B. rewrite E1, E2. split; auto.
Qed.
Print Assumptions C18_raising_calls_partial.

(** partition(n) returns exactly for integers n between 1 and the number of rows *)
Theorem C18_partition_domain : forall (G : gen) (U : Type) a (ws : world G U (nd R) * subspaces),
  (exists ws', ss_partition a ws = (Ok tt, ws')) <->
  exists n V, a = IsA n /\ s_eigenvecs (snd ws) = Some V /\ (1 <= n <= Z.of_nat (nrows V))%Z.
Proof. intros G U. exact ss_partition_iff. Qed.
Print Assumptions C18_partition_domain.

(** compute on gradients without bootstrap and a partition type that raises *)
Lemma compute_as_raising : forall eigh argsort lstsq norm2 det (G : gen) (U : Type) (w : world G U (nd R)) s M m d e V ptype,
  shape d = [M; m] -> active_subspace eigh argsort d (mk2 M 1 (fun _ _ => / INR M)) = Ok (e, V) ->
  (ptype = "RS" \/ ptype = "none")%string ->
  exists x ws', ss_compute eigh argsort lstsq norm2 det None None (Some d) None "AS" ptype 0 (w, s) = (Err x, ws') /\
    s_eigenvecs (snd ws') = Some V /\ s_W1 (snd ws') = s_W1 s /\ s_W2 (snd ws') = s_W2 s.
Proof.
  intros eigh argsort lstsq norm2 det G U w s M m d e V ptype Hd HA Hp. unfold ss_compute.
  rewrite (process_inputs_eq _ d M m Hd). cbn [rbind]. unfold mlift at 1, mbind at 1.
  unfold liftW at 1, ssmethod at 1. cbn [String.eqb Ascii.eqb Bool.eqb fst snd]. unfold mlift at 1. rewrite HA. unfold mbind at 1.
  destruct Hp as [-> | ->].
  - eexists _, _. split; [reflexivity|]. cbn [snd s_eigenvecs s_W1 s_W2]. auto.
  - eexists _, _. split; [reflexivity|]. cbn [snd s_eigenvecs s_W1 s_W2]. auto.
Qed.

(** C18 as stated is false: on a fresh object, compute with a misspelt partition
    type raises after storing the eigenvectors, so eigenvecs is set and W1 is None *)
Theorem C18_refuted : exists h : list call,
  ~ consistent (snd (run eigh_ref argsort_ref lstsq_ref norm2_ref det_ref h (toy_world (L := nd R) tt, subs_new))).
Proof.
  exists [Compute None None (Some df11) None "AS" "none" 0].
  destruct (C11_returns eigh_ref argsort_ref 2 2 df11 (mk2 2 1 (fun _ _ => / INR 2)) eigh_ref_contract eigh_ref_total ltac:(lia) eq_refl eq_refl) as (e & V & H).
  destruct (compute_as_raising eigh_ref argsort_ref lstsq_ref norm2_ref det_ref toy_gen unit (toy_world tt) subs_new 2 2 df11 e V "none" eq_refl H (or_intror eq_refl))
    as (x & ws' & E & EV & E1 & E2).
  unfold run. cbn [fold_left exec]. rewrite E. cbn [snd]. unfold consistent. rewrite EV, E1. intros (m & n & A & B & C & _). discriminate.
Qed.
Print Assumptions C18_refuted.

(** worse: after a successful compute in 2 variables, a raising compute in 3
    variables leaves W1 with 2 rows beside a 3-by-3 eigenvecs *)
Theorem C18_stale_subspace_refuted : exists (h : list call) V A,
  let s := snd (run eigh_ref argsort_ref lstsq_ref norm2_ref det_ref h (toy_world (L := nd R) tt, subs_new)) in
  s_eigenvecs s = Some V /\ s_W1 s = Some A /\ nrows V = 3%nat /\ nrows A = 2%nat.
Proof.
  destruct (C11_returns eigh_ref argsort_ref 2 2 df11 (mk2 2 1 (fun _ _ => / INR 2)) eigh_ref_contract eigh_ref_total ltac:(lia) eq_refl eq_refl) as (e & V & H).
  destruct (active_subspace_spec eigh_ref argsort_ref eigh_ref_contract argsort_ref_contract 2 2 df11 (mk2 2 1 (fun _ _ => / INR 2)) e V eq_refl eq_refl H) as (lam & L).
  set (d3 := mat_of [[1; 0; 0]]).
  destruct (C11_returns eigh_ref argsort_ref 1 3 d3 (mk2 1 1 (fun _ _ => / INR 1)) eigh_ref_contract eigh_ref_total ltac:(lia) eq_refl eq_refl) as (e3 & V3 & H3).
  destruct (active_subspace_spec eigh_ref argsort_ref eigh_ref_contract argsort_ref_contract 1 3 d3 (mk2 1 1 (fun _ _ => / INR 1)) e3 V3 eq_refl eq_refl H3) as (lam3 & L3).
  exists [Compute None None (Some df11) None "AS" "none" 0; Partition (IsA 1%Z); Compute None None (Some d3) None "AS" "RS" 0], V3, (cols_slice V 0 1).
  destruct (compute_as_raising eigh_ref argsort_ref lstsq_ref norm2_ref det_ref toy_gen unit (toy_world tt) subs_new 2 2 df11 e V "none" eq_refl H (or_intror eq_refl))
    as (x & [w1 s1] & E & EV & E1 & E2).
  unfold run. cbn [fold_left exec]. rewrite E. cbn [snd] in EV |- *.
  assert (EP : ss_partition (IsA 1%Z) (w1, s1) = (Ok tt, (w1, Subs (s_eigenvals s1) (s_eigenvecs s1) (Some (cols_slice V 0 1)) (Some (cols_slice V 1 (ncols V))) (s_e_br s1) (s_sub_br s1)))).
  { unfold ss_partition, mbind, getS, setS. cbn [snd]. rewrite EV. rewrite (nrows_shape2 _ V 2 2 (es_V _ _ _ _ _ L)). reflexivity. }
  rewrite EP. cbn [snd].
  match goal with |- context [ss_compute _ _ _ _ _ None None (Some d3) None "AS" "RS" 0 (w1, ?s)] =>
    destruct (compute_as_raising eigh_ref argsort_ref lstsq_ref norm2_ref det_ref toy_gen unit w1 s 1 3 d3 e3 V3 "RS" eq_refl H3 (or_introl eq_refl))
      as (x3 & ws3 & F & FV & F1 & F2) end.
  rewrite F. cbn [snd]. rewrite FV, F1. cbn [s_W1]. split; auto. split; auto.
  split; [apply (nrows_shape2 _ V3 3 3 (es_V _ _ _ _ _ L3))|]. unfold cols_slice. cbn. apply (nrows_shape2 _ V 2 2 (es_V _ _ _ _ _ L)).
Qed.
Print Assumptions C18_stale_subspace_refuted.

(** ** C20 *)
Theorem C20_replicates_keep_samples_together : forall (G : gen) (U : Type) X f df weights (w : world G U (nd R)) X0 f0 df0 w0 w',
  bootstrap_replicate X f df weights w = (Ok (X0, f0, df0, w0), w') ->
  let M := nrows weights in
  exists ind : nat -> nat, (forall i, (i < M)%nat -> (ind i < M)%nat) /\ nrows w0 = M /\
    (forall i j, (i < M)%nat -> (j < ncols weights)%nat -> w0.[i, j] = weights.[ind i, j]) /\
    forall Y Y0, In (Y, Y0) [(X, X0); (f, f0); (df, df0)] ->
      match Y, Y0 with
      | None, None => True
      | Some y, Some y0 => shape y0 = [M; ncols y] /\ (forall i j, (i < M)%nat -> (j < ncols y)%nat -> y0.[i, j] = y.[ind i, j])
      | _, _ => False
      end.
Proof.
  intros G U X f df weights w X0 f0 df0 w0 w' H M.
  destruct (bootstrap_replicate_ok _ _ _ _ _ _ _ _ _ _ H) as (ind & L1 & L2 & L3 & HX & Hf & Hd & Hw).
  assert (RO : forall y y0, rows_of y ind y0 -> shape y0 = [M; ncols y] /\ (forall i j, (i < M)%nat -> (j < ncols y)%nat -> y0.[i, j] = y.[nth i ind 0%nat, j])).
  { intros y y0 (r & c & S1 & S2 & _ & E). rewrite (ncols_shape2 _ y r c S1). rewrite L1 in S2, E. auto. }
  exists (fun i => nth i ind 0%nat). split.
  { intros i Hi. rewrite Forall_forall in L2. apply L2. apply nth_In. unfold M in Hi. lia. }
  destruct (RO _ _ Hw) as (R1 & R2). split; [apply (nrows_shape2 _ w0 M _ R1)|]. split; [exact R2|].
  assert (OR : forall Y Y0, opt_rows_of Y ind Y0 -> match Y, Y0 with None, None => True
      | Some y, Some y0 => shape y0 = [M; ncols y] /\ (forall i j, (i < M)%nat -> (j < ncols y)%nat -> y0.[i, j] = y.[nth i ind 0%nat, j])
      | _, _ => False end).
  { intros [y|] Y0 HY; cbn in HY; [destruct HY as (y0 & -> & HY); apply RO; auto|subst; auto]. }
  intros Y Y0 [E|[E|[E|[]]]]; injection E as <- <-; apply OR; auto.
Qed.
Print Assumptions C20_replicates_keep_samples_together.

Theorem C20_returns : forall (G : gen) (U : Type) X f df weights M c (w : world G U (nd R)), shape weights = [M; c] -> (1 <= M)%nat ->
  (forall y, In (Some y) [X; f; df] -> exists k, shape y = [M; k]) ->
  exists r w', bootstrap_replicate X f df weights w = (Ok r, w').
Proof.
  intros G U X f df weights M c w Hw HM H.
  apply (bootstrap_replicate_returns X f df weights M c w Hw HM); intros x ->; apply H; cbn; auto.
Qed.
Print Assumptions C20_returns.

Example C20_case : exists r w', bootstrap_replicate (Some X14) (Some f14) None w14 (toy_world (L := nd R) tt) = (Ok r, w').
Proof.
  apply (C20_returns toy_gen unit (Some X14) (Some f14) None w14 4 1 (toy_world tt) eq_refl ltac:(lia)).
  intros y [E|[E|[E|[]]]]; [injection E as <-; exists 2%nat; reflexivity|injection E as <-; exists 1%nat; reflexivity|discriminate].
Qed.

(** ** C19 *)
Theorem C19_bootstrap_ranges : forall eigh argsort lstsq norm2 det (G : gen) (U : Type) sstype e V X f df weights nboot
    (w : world G U (nd R)) e_br sub_br li_F w' m,
  eigh_contract eigh -> argsort_contract argsort -> norm2_contract norm2 -> det_contract det ->
  (1 <= nboot)%nat -> shape V = [m; m] ->
  (forall a b, (a < m)%nat -> (b < m)%nat -> sumf m (fun i => V.[i, a] * V.[i, b]) = if Nat.eqb a b then 1 else 0) ->
  (* V has as many rows as the data have columns *)
  match df, X with Some d, _ => ncols d = m | None, Some x => ncols x = m | None, None => False end ->
  bootstrap_ranges norm2 det e V X f df weights (ssmethod eigh argsort lstsq sstype) nboot w = (Ok (e_br, sub_br, li_F), w') ->
  shape e_br = [m; 2%nat] /\ shape sub_br = [(m - 1)%nat; 3%nat] /\ shape li_F = [m; 1%nat] /\
  exists (eb Vb : nat -> nd R) (dist : nat -> nat -> R),
    (* replicate i is the method's answer on resampled data *)
    (forall i, (i < nboot)%nat -> exists ind X0 f0 df0 w0 (wa wb : world G U (nd R)),
       List.length ind = nrows weights /\ opt_rows_of X ind X0 /\ opt_rows_of f ind f0 /\ opt_rows_of df ind df0 /\ rows_of weights ind w0 /\
       ssmethod eigh argsort lstsq sstype X0 f0 df0 w0 wa = (Ok (eb i, Vb i), wb)) /\
    (* distance of replicate i's trailing from the leading j+1 directions: the largest stretch of W1_j^T W2b_j *)
    (forall i j, (i < nboot)%nat -> (j < m - 1)%nat ->
       is_norm2 (j + 1) (m - (j + 1)) (fun a b => sumf m (fun l => V.[l, a] * (Vb i).[l, (j + 1 + b)%nat])) (dist i j)) /\
    (* e_br: attained bounds *)
    (forall j, (j < m)%nat ->
       (forall i, (i < nboot)%nat -> e_br.[j, 0%nat] <= (eb i).[j, 0%nat] <= e_br.[j, 1%nat]) /\
       (exists i, (i < nboot)%nat /\ (eb i).[j, 0%nat] = e_br.[j, 0%nat]) /\ (exists i, (i < nboot)%nat /\ (eb i).[j, 0%nat] = e_br.[j, 1%nat])) /\
    (* sub_br: min, mean, max *)
    (forall j, (j < m - 1)%nat ->
       (forall i, (i < nboot)%nat -> sub_br.[j, 0%nat] <= dist i j <= sub_br.[j, 2%nat]) /\
       (exists i, (i < nboot)%nat /\ dist i j = sub_br.[j, 0%nat]) /\ (exists i, (i < nboot)%nat /\ dist i j = sub_br.[j, 2%nat]) /\
       sub_br.[j, 1%nat] * INR nboot = sumf nboot (fun i => dist i j) /\
       0 <= sub_br.[j, 0%nat] <= sub_br.[j, 1%nat] /\ sub_br.[j, 1%nat] <= sub_br.[j, 2%nat] <= 1) /\
    (* Li's metric: undefined throughout, or the normalised mean of 1 - |det| *)
    (let li j := match j with O => 0 | S j' =>
         sumf nboot (fun i => 1 - Rabs (determinant (S j') (fun a b => sumf m (fun l => V.[l, a] * (Vb i).[l, b])))) / INR nboot end in
     ((forall j, (j < m)%nat -> li_F.[j, 0%nat] = NaN) \/
      exists F, (forall j, (j < m)%nat -> li_F.[j, 0%nat] = Fin (F j) /\ 0 <= F j /\ F j * sumf m li = li j) /\ sumf m F = 1)).
Proof.
  intros eigh argsort lstsq norm2 det G U sstype e V X f df weights nboot w e_br sub_br li_F w' m HE HA HN HD Hn HV HO Hcol H.
  assert (Hdim : forall k, data_dim X df k -> m = k).
  { intros k Hk. unfold data_dim in Hk. destruct df as [d|].
    - destruct Hk as (M & Hk). rewrite (ncols_shape2 _ d M k Hk) in Hcol. congruence.
    - destruct X as [x|]; [|contradiction]. destruct Hk as (M & Hk). rewrite (ncols_shape2 _ x M k Hk) in Hcol. congruence. }
  destruct (bootstrap_ranges_ok norm2 det HN HD e V X f df weights _ nboot w e_br sub_br li_F w' m Hn HV Hdim (ssmethod_shapes eigh argsort lstsq HE HA sstype) H)
    as (Hm & _ & S1 & S2 & S3 & ind & eb & Vb & dist & R1 & R2 & R3 & R4 & R5).
  split; auto. split; auto. split; auto. exists eb, Vb, dist.
  assert (OV : forall i, (i < nboot)%nat -> orthonormal m m (ent (Vb i))).
  { intros i Hi. destruct (R1 i Hi) as ((_ & _ & X0 & f0 & df0 & w0 & wa & wb & _ & _ & _ & _ & HM) & _ & SV).
    destruct (ssmethod_ok eigh argsort lstsq HE HA _ _ _ _ _ _ _ _ _ HM) as (k & C & lam & _ & L).
    assert (k = m) by (pose proof (es_V _ _ _ _ _ L) as Q; rewrite SV in Q; congruence). subst k. apply (es_orth _ _ _ _ _ L). }
  assert (HNp : 0 < INR nboot) by (apply lt_0_INR; lia).
  split.
  { intros i Hi. destruct (R1 i Hi) as ((Q1 & Q2 & X0 & f0 & df0 & w0 & wa & wb & Q) & _). exists (ind i), X0, f0, df0, w0, wa, wb. tauto. }
  split.
  { intros i j Hi Hj. replace (j + 1)%nat with (S j) by lia. apply (R2 i j Hi Hj). }
  split.
  { intros j Hj. destruct (R3 j Hj) as ((A1 & A2) & (B1 & B2)). split; [intros i Hi; split; [apply A1|apply B1]; auto|]. split; auto. }
  split.
  { intros j Hj. destruct (R4 j Hj) as ((A1 & A2) & C & (B1 & B2)).
    assert (DR : forall i, (i < nboot)%nat -> 0 <= dist i j <= 1).
    { intros i Hi. apply (subspace_dist_range m (ent V) (ent (Vb i)) j); auto; lia. }
    assert (SM : sub_br.[j, 1%nat] * INR nboot = sumf nboot (fun i => dist i j)) by (rewrite C; field; lra).
    split; [intros i Hi; split; [apply A1|apply B1]; auto|]. split; auto. split; auto. split; auto.
    assert (LO : sub_br.[j, 0%nat] * INR nboot <= sub_br.[j, 1%nat] * INR nboot).
    { rewrite SM, Rmult_comm. rewrite <- sumf_const. apply sumf_le. intros; apply A1; auto. }
    assert (HI : sub_br.[j, 1%nat] * INR nboot <= sub_br.[j, 2%nat] * INR nboot).
    { rewrite SM, (Rmult_comm _ (INR nboot)). rewrite <- sumf_const. apply sumf_le. intros; apply B1; auto. }
    apply Rmult_le_reg_r in LO, HI; auto.
    destruct A2 as (i1 & Hi1 & E1). destruct B2 as (i2 & Hi2 & E2). cbv beta in E1, E2.
    pose proof (DR i1 Hi1). pose proof (DR i2 Hi2). rewrite <- E1, <- E2 in *. lra. }
  set (li := fun j => match j with O => 0 | S j' => sumf nboot (fun i => 1 - Rabs (determinant (S j') (fun a b => sumf m (fun l => V.[l, a] * (Vb i).[l, b])))) / INR nboot end).
  cbv zeta. fold li.
  assert (R5' : forall j, (j < m)%nat -> li_F.[j, 0%nat] = xdiv (Fin (li j)) (Fin (sumf m li))) by (intros j Hj; exact (R5 j Hj)).
  destruct (li_metric m nboot (fun i j => determinant (S j) (crossprod m (ent V) (ent (Vb i)) 0)) li_F Hm Hn) as [L|(F & HF & SF)]; auto.
  { intros i j Hi Hj. apply subspace_det_range; auto. lia. }
  right. exists F. split; auto. intros j Hj. destruct (HF j Hj) as (F1 & F2). split; auto. split; auto.
  rewrite R5' in F1 by auto. destruct (Req_EM_T (sumf m li) 0) as [Z|Z].
  - rewrite Z in F1. destruct (xdiv_zero (li j)) as (a & Ea & Na). rewrite Ea in F1. now apply Na in F1.
  - rewrite xdiv_fin in F1 by auto. injection F1 as <-. field. exact Z.
Qed.
Print Assumptions C19_bootstrap_ranges.

(** compute stores these ranges *)
Theorem C19_compute_stores_ranges : forall eigh argsort lstsq norm2 det (G : gen) (U : Type) X f df weights sstype ptype nboot
    (ws ws' : world G U (nd R) * subspaces),
  eigh_contract eigh -> argsort_contract argsort ->
  ss_compute eigh argsort lstsq norm2 det X f df weights sstype ptype nboot ws = (Ok tt, ws') ->
  ((nboot <= 0)%Z -> s_e_br (snd ws') = None /\ s_sub_br (snd ws') = None) /\
  ((0 < nboot)%Z -> exists M m e V e_br sub_br li_F (w1 w2 : world G U (nd R)),
     match X, df with Some x, _ => shape x = [M; m] | None, Some d => shape d = [M; m] | None, None => False end /\
     s_e_br (snd ws') = Some e_br /\ s_sub_br (snd ws') = Some sub_br /\
     s_eigenvals (snd ws') = Some e /\ s_eigenvecs (snd ws') = Some V /\
     bootstrap_ranges norm2 det e V X f df (match weights with None => mk2 M 1 (fun _ _ => / INR M) | Some w => w end)
       (ssmethod eigh argsort lstsq sstype) (Z.to_nat nboot) w1 = (Ok (e_br, sub_br, li_F), w2)).
Proof.
  intros eigh argsort lstsq norm2 det G U X f df weights sstype ptype nboot ws ws' HE HA H.
  destruct (ss_compute_ok eigh argsort lstsq norm2 det HE HA _ _ _ _ _ _ _ _ _ _ H) as (M & m & e & V & w1 & br & n & A & B & k & HX & _ & HB & _ & _ & _ & _ & ES).
  rewrite ES. cbn [s_e_br s_sub_br s_eigenvals s_eigenvecs]. destruct (Z.ltb_spec 0 nboot) as [L|L].
  - split; [lia|]. intros _. destruct HB as (((e_br & sub_br) & li_F) & -> & HB). exists M, m, e, V, e_br, sub_br, li_F, w1, (fst ws').
    split; [exact HX|]. repeat (split; [reflexivity|]). exact HB.
  - split; [|lia]. intros _. destruct HB as (-> & _). auto.
Qed.
Print Assumptions C19_compute_stores_ranges.

(** ** C53 *)
Theorem C53_compute : forall eigh argsort lstsq norm2 det (G : gen) (U : Type) X f df weights sstype ptype nboot
    (ws ws' : world G U (nd R) * subspaces),
  eigh_contract eigh -> argsort_contract argsort -> norm2_contract norm2 -> det_contract det ->
  same_columns X df ->
  ss_compute eigh argsort lstsq norm2 det X f df weights sstype ptype nboot ws = (Ok tt, ws') ->
  exists M m e V n A (w1 : world G U (nd R)),
    match X, df with Some x, _ => shape x = [M; m] | None, Some d => shape d = [M; m] | None, None => False end /\
    (* the method's eigenpairs, with weights 1/M by default, are what is stored *)
    ssmethod eigh argsort lstsq sstype X f df (match weights with None => mk2 M 1 (fun _ _ => / INR M) | Some w => w end) (fst ws) = (Ok (e, V), w1) /\
    s_eigenvals (snd ws') = Some e /\ s_eigenvecs (snd ws') = Some V /\ s_W1 (snd ws') = Some A /\
    shape e = [m; 1%nat] /\ shape V = [m; m] /\ shape A = [m; n] /\ (1 <= n <= m)%nat /\
    (forall i j, (i < m)%nat -> (j < n)%nat -> A.[i, j] = V.[i, j]) /\
    (* and the dimension n optimises the criterion of the partition type *)
    let E q := e.[(q - 1)%nat, 0%nat] in
    (ptype = "EVG"%string /\ first_best Rgt (m - 1) (fun q => Rabs (E q - E (q + 1)%nat)) n \/
     ptype = "RS"%string /\ (exists sub_br, s_sub_br (snd ws') = Some sub_br /\
       first_best Rlt (m - 1) (fun q => sqrt (sumf q (fun i => e.[i, 0%nat])) * sub_br.[(q - 1)%nat, 1%nat]
                                        + sqrt (sumf (m - q) (fun i => e.[(q + i)%nat, 0%nat]))) n) \/
     ptype = "LI"%string /\ (exists e_br sub_br li_F (w2 : world G U (nd R)),
       bootstrap_ranges norm2 det e V X f df (match weights with None => mk2 M 1 (fun _ _ => / INR M) | Some w => w end)
         (ssmethod eigh argsort lstsq sstype) (Z.to_nat nboot) w1 = (Ok (e_br, sub_br, li_F), w2) /\
       (n = 1%nat /\ (li_F.[0%nat, 0%nat] = NaN \/ (forall i, (i < m)%nat -> e.[i, 0%nat] = 0)) \/
        exists F, (forall j, (j < m)%nat -> li_F.[j, 0%nat] = Fin (F j)) /\
          first_best Rlt m (fun q => F (q - 1)%nat + E q / sumf m (fun i => e.[i, 0%nat])) n))).
Proof.
  intros eigh argsort lstsq norm2 det G U X f df weights sstype ptype nboot ws ws' HE HA HN HD Hcol H.
  destruct (ss_compute_ok eigh argsort lstsq norm2 det HE HA _ _ _ _ _ _ _ _ _ _ H) as (M & m & e & V & w1 & br & n & A & B & k & HX & HM & HB & HC & HS & Hn & Hd & ES).
  assert (k = m).
  { unfold method_dim in Hd. destruct (String.eqb sstype "AS").
    - destruct Hd as (d & M' & -> & Sd). destruct X as [x|].
      + specialize (Hcol x d eq_refl eq_refl). rewrite (ncols_shape2 _ x M m HX), (ncols_shape2 _ d M' k Sd) in Hcol. auto.
      + rewrite HX in Sd. congruence.
    - destruct Hd as (x & M' & -> & Sx). rewrite HX in Sx. congruence. }
  subst k. destruct (ssmethod_ok eigh argsort lstsq HE HA _ _ _ _ _ _ _ _ _ HM) as (k & C & lam & _ & L).
  destruct HS as (S1 & S2 & S3 & S4 & S5 & S6).
  assert (k = m) by (pose proof (es_V _ _ _ _ _ L) as Q; rewrite S1 in Q; congruence). subst k.
  exists M, m, e, V, (Z.to_nat n), A, w1. rewrite ES. cbn [s_e_br s_sub_br s_eigenvals s_eigenvecs s_W1].
  split; auto. split; auto. split; auto. split; auto. split; auto. split; [apply (es_e _ _ _ _ _ L)|]. split; auto. split; auto. split; auto. split; auto.
  cbv zeta.
  assert (Hdim : forall q, data_dim X df q -> q = m).
  { intros q Hq. unfold data_dim in Hq. destruct df as [d|].
    - destruct Hq as (M' & Hq). destruct X as [x|].
      + specialize (Hcol x d eq_refl eq_refl). rewrite (ncols_shape2 _ x M m HX), (ncols_shape2 _ d M' q Hq) in Hcol. auto.
      + rewrite HX in Hq. congruence.
    - destruct X as [x|]; [|contradiction]. destruct Hq as (M' & Hq). rewrite HX in Hq. congruence. }
  assert (HBR : forall a sub_br li_F, br = Some (a, sub_br, li_F) -> (0 < nboot)%Z /\
     bootstrap_ranges norm2 det e V X f df (wdefault M weights) (ssmethod eigh argsort lstsq sstype) (Z.to_nat nboot) w1 = (Ok (a, sub_br, li_F), fst ws')).
  { intros a sub_br li_F ->. destruct (Z.ltb_spec 0 nboot) as [Lb|Lb]; [|destruct HB; discriminate].
    destruct HB as (b & Eb & HB). injection Eb as <-. auto. }
  destruct (choose_dim_ok ptype m e br n (es_e _ _ _ _ _ L) (es_m _ _ _ _ _ L) (eigsorted_nonneg _ _ _ _ _ L)) as [Q|[Q|Q]]; auto.
  { intros a sub_br li_F Ebr. destruct (HBR a sub_br li_F Ebr) as (Lb & HB').
    destruct (bootstrap_facts eigh argsort lstsq norm2 det HE HA HN HD sstype e V X f df (wdefault M weights) (Z.to_nat nboot) w1 a sub_br li_F (fst ws') m
      ltac:(lia) S1 (es_orth _ _ _ _ _ L) Hdim HB') as (T1 & T2 & _ & T3). auto. }
  - right. left. destruct Q as (-> & a & sub_br & li_F & -> & Q). split; auto. exists sub_br. auto.
  - right. right. destruct Q as (-> & a & sub_br & li_F & Ebr & Q). split; auto.
    destruct (HBR a sub_br li_F Ebr) as (_ & HB'). exists a, sub_br, li_F, (fst ws'). split; [exact HB'|]. exact Q.
Qed.
Print Assumptions C53_compute.

(** computing an active subspace from gradients in two or more variables always works *)
Theorem C53_gradient_method_returns : forall eigh argsort lstsq norm2 det (G : gen) (U : Type) M m d weights ptype nboot
    (ws : world G U (nd R) * subspaces),
  eigh_contract eigh -> argsort_contract argsort -> eigh_total eigh -> norm2_contract norm2 -> det_contract det ->
  (1 <= M)%nat -> (2 <= m)%nat -> shape d = [M; m] -> match weights with None => True | Some w => shape w = [M; 1%nat] end ->
  (ptype = "EVG" \/ (ptype = "RS" \/ ptype = "LI") /\ (0 < nboot)%Z)%string ->
  exists ws', ss_compute eigh argsort lstsq norm2 det None None (Some d) weights "AS" ptype nboot ws = (Ok tt, ws').
Proof.
  intros eigh argsort lstsq norm2 det G U M m d weights ptype nboot [w s] HE HA HT HN HD HM Hm Hd Hw Hp.
  set (wt := match weights with None => mk2 M 1 (fun _ _ => / INR M) | Some w => w end).
  assert (Swt : shape wt = [M; 1%nat]) by (unfold wt; destruct weights; auto).
  destruct (active_subspace_returns eigh argsort HE M m d wt HT ltac:(lia) Hd Swt) as ((e & V) & EA).
  destruct (active_subspace_spec eigh argsort HE HA M m d wt e V Hd Swt EA) as (lam & L).
  assert (Se := es_e _ _ _ _ _ L). assert (SV := es_V _ _ _ _ _ L).
  unfold ss_compute. rewrite (process_inputs_eq _ d M m Hd). cbn [rbind]. unfold mlift at 1, mbind at 1. fold wt.
  unfold liftW at 1, ssmethod at 1. cbn [String.eqb Ascii.eqb Bool.eqb fst snd]. unfold mlift at 1. rewrite EA. unfold mbind at 1.
  unfold mbind at 1, getS at 1. cbn [snd fst]. unfold mbind at 1, setS at 1. cbn [snd fst].
  (* the bootstrap, if any *)
  match goal with |- context [mbind (if Z.ltb 0 nboot then _ else _) ?K] =>
    assert (HB : exists br w', ((if Z.ltb 0 nboot
       then dom r <- liftW (bootstrap_ranges norm2 det e V None None (Some d) wt (ssmethod eigh argsort lstsq "AS") (Z.to_nat nboot)); mret (Some r)
       else if (String.eqb ptype "RS" || String.eqb ptype "LI")%bool then merr (Exc "Need to run bootstrap for partition type") else mret None)
       (w, Subs (Some e) (Some V) (s_W1 s) (s_W2 s) (s_e_br s) (s_sub_br s)) = (Ok br, (w', Subs (Some e) (Some V) (s_W1 s) (s_W2 s) (s_e_br s) (s_sub_br s)))) /\
       exists n, choose_dim ptype m e br = Ok n /\ (1 <= n <= Z.of_nat m)%Z) end.
  { assert (EVG : forall br, ptype = "EVG"%string -> exists n, choose_dim ptype m e br = Ok n /\ (1 <= n <= Z.of_nat m)%Z).
    { intros br ->. destruct (eig_partition_eq m e Se Hm) as (k & ed & EP & _ & _ & K1 & _).
      unfold choose_dim. cbn [String.eqb Ascii.eqb Bool.eqb]. rewrite EP. cbn [rbind]. eexists. split; [reflexivity|]. lia. }
    destruct (Z.ltb_spec 0 nboot) as [Lb|Lb].
    - destruct (bootstrap_returns eigh argsort lstsq norm2 det HE HA HT M m e V None None d wt (Z.to_nat nboot) w HM ltac:(lia) SV Hd Swt) as (((e_br & sub_br) & li_F) & w' & EB); try discriminate.
      exists (Some (e_br, sub_br, li_F)), w'. split.
      + unfold mbind, liftW. cbn [fst snd]. rewrite EB. reflexivity.
      + destruct (bootstrap_facts eigh argsort lstsq norm2 det HE HA HN HD "AS" e V None None (Some d) wt (Z.to_nat nboot) w e_br sub_br li_F w' m
          ltac:(lia) SV (es_orth _ _ _ _ _ L)) as (T1 & T2 & _ & T3); auto.
        { intros k (M' & Hk). rewrite Hd in Hk. congruence. }
        destruct Hp as [Hp|[[Hp|Hp] _]]; [apply EVG; auto| |]; subst ptype; unfold choose_dim; cbn [String.eqb Ascii.eqb Bool.eqb].
        * rewrite (nrows_shape2 _ sub_br _ _ T1).
          destruct (reshape_ok _ [(m - 1)%nat; 1%nat] (mk1 (m - 1) (fun i => sub_br.[i, 1%nat]))) as (err & F1 & F2 & F3); [cbn; lia|].
          rewrite F1. cbn [rbind].
          destruct (errbnd_partition_eq m e err Se F2 Hm (eigsorted_nonneg _ _ _ _ _ L)) as (k & eb & EP & _ & _ & K1 & _).
          rewrite EP. cbn [rbind]. eexists. split; [reflexivity|]. lia.
        * destruct (ladle_sum m e li_F Se T2) as (Gm & G1 & G2 & ->).
          destruct (np_argmin_col m Gm G1 ltac:(lia)) as (k & Ek & Hk & _). rewrite Ek. cbn [rbind]. eexists. split; [reflexivity|]. lia.
    - destruct Hp as [Hp|[_ Hp]]; [|lia]. exists None, w. split; [|apply EVG; auto]. subst ptype. reflexivity. }
  destruct HB as (br & w' & HB & n & Hn & Hn2). unfold mbind at 1. rewrite HB.
  unfold mbind at 1, getS at 1. cbn [snd fst]. unfold mbind at 1, setS at 1. cbn [snd fst s_eigenvals s_eigenvecs s_W1 s_W2].
  unfold mlift at 1. rewrite Hn. unfold mbind at 1.
  apply ss_partition_iff. exists n, V. cbn [snd s_eigenvecs]. split; auto. split; auto. now rewrite (nrows_shape2 _ V m m SV).
Qed.
Print Assumptions C53_gradient_method_returns.

Lemma no_inputs : forall d, same_columns None d.
Proof. intros d x y E. discriminate. Qed.

(** two gradients in two variables, bootstrap with 2 replicates, Li's rule *)
Example C19_case : exists ws', ss_compute eigh_ref argsort_ref lstsq_ref norm2_ref det_ref None None (Some df11) None "AS" "LI" 2 (toy_world (L := nd R) tt, subs_new) = (Ok tt, ws') /\
  exists e_br sub_br, s_e_br (snd ws') = Some e_br /\ s_sub_br (snd ws') = Some sub_br.
Proof.
  destruct (C53_gradient_method_returns eigh_ref argsort_ref lstsq_ref norm2_ref det_ref toy_gen unit 2 2 df11 None "LI" 2 (toy_world tt, subs_new)
    eigh_ref_contract argsort_ref_contract eigh_ref_total norm2_ref_contract det_ref_contract ltac:(lia) ltac:(lia) eq_refl I) as (ws' & H).
  { right. split; [right; reflexivity|reflexivity]. }
  exists ws'. split; auto.
  destruct (C19_compute_stores_ranges eigh_ref argsort_ref lstsq_ref norm2_ref det_ref toy_gen unit _ _ _ _ _ _ _ _ _ eigh_ref_contract argsort_ref_contract H) as (_ & H2).
  destruct (H2 ltac:(lia)) as (M & m & e & V & e_br & sub_br & li_F & w1 & w2 & _ & E1 & E2 & _). eauto.
Qed.

(** with the gradients of C11_case the chosen dimension is 1 *)
Example C53_case : exists ws' A, ss_compute eigh_ref argsort_ref lstsq_ref norm2_ref det_ref None None (Some df11) None "AS" "EVG" 0 (toy_world (L := nd R) tt, subs_new) = (Ok tt, ws') /\
  s_W1 (snd ws') = Some A /\ shape A = [2%nat; 1%nat].
Proof.
  destruct (C53_gradient_method_returns eigh_ref argsort_ref lstsq_ref norm2_ref det_ref toy_gen unit 2 2 df11 None "EVG" 0 (toy_world tt, subs_new)
    eigh_ref_contract argsort_ref_contract eigh_ref_total norm2_ref_contract det_ref_contract ltac:(lia) ltac:(lia) eq_refl I (or_introl eq_refl)) as (ws' & H).
  destruct (C53_compute eigh_ref argsort_ref lstsq_ref norm2_ref det_ref toy_gen unit _ _ _ _ _ _ _ _ _
    eigh_ref_contract argsort_ref_contract norm2_ref_contract det_ref_contract (no_inputs _) H)
    as (M & m & e & V & n & A & w1 & S0 & _ & _ & _ & EA & _ & _ & SA & _ & _ & [(_ & FB)|[(E & _)|(E & _)]]); try discriminate.
  exists ws', A. split; auto. split; auto. change ([2%nat; 2%nat] = [M; m]) in S0. injection S0 as <- <-. rewrite SA. destruct FB as (FB & _). replace n with 1%nat by lia. reflexivity.
Qed.

(** C18 on a concrete history: compute, a rejected partition, a valid partition *)
Example C18_case : exists ws', run eigh_ref argsort_ref lstsq_ref norm2_ref det_ref
    [Compute None None (Some df11) None "AS" "EVG" 0; Partition (IsA 3%Z); Partition (IsA 2%Z)] (toy_world (L := nd R) tt, subs_new) = ws' /\
  exists A, s_W1 (snd ws') = Some A /\ shape A = [2%nat; 2%nat].
Proof.
  eexists. split; [reflexivity|]. unfold run. cbn [fold_left exec].
  destruct (C53_gradient_method_returns eigh_ref argsort_ref lstsq_ref norm2_ref det_ref toy_gen unit 2 2 df11 None "EVG" 0 (toy_world tt, subs_new)
    eigh_ref_contract argsort_ref_contract eigh_ref_total norm2_ref_contract det_ref_contract ltac:(lia) ltac:(lia) eq_refl I (or_introl eq_refl)) as (ws1 & H).
  destruct (C53_compute eigh_ref argsort_ref lstsq_ref norm2_ref det_ref toy_gen unit _ _ _ _ _ _ _ _ _
    eigh_ref_contract argsort_ref_contract norm2_ref_contract det_ref_contract (no_inputs _) H)
    as (M & m & e & V & n & A & w1 & S0 & _ & _ & EV & _ & _ & SV & _).
  change ([2%nat; 2%nat] = [M; m]) in S0. injection S0 as <- <-. rewrite H. cbn [snd].
  assert (E3 : ss_partition (IsA 3%Z) ws1 = (Err ValueError, ws1)).
  { destruct ws1 as [wa s1]. unfold ss_partition, mbind, getS. cbn [snd] in *. rewrite EV, (nrows_shape2 _ V 2 2 SV). reflexivity. }
  rewrite E3. cbn [snd].
  destruct (proj2 (ss_partition_iff (IsA 2%Z) ws1)) as (ws2 & H2).
  { exists 2%Z, V. split; auto. split; auto. rewrite (nrows_shape2 _ V 2 2 SV). lia. }
  rewrite H2. cbn [snd]. destruct (ss_partition_ok _ _ _ _ H2) as (n' & V' & A' & B' & En & EV' & _ & ES & _ & HS).
  rewrite EV in EV'. injection EV' as <-. injection En as <-. exists A'. rewrite ES. split; auto. destruct (HS 2%nat SV) as (_ & _ & S1 & _). exact S1.
Qed.

(** ** C54 *)
(** OPG uses p = min(floor(1.7 m), M) neighbours, which must be at least m+1 and less than M *)
Lemma Ok_inj : forall A (x y : A), Ok x = Ok y -> x = y.
Proof. intros A x y H. now injection H. Qed.
Theorem C54_opg_needs : forall eigh argsort lstsq (G : gen) (U : Type) X f weights M m (w : world G U (nd R)) r w',
  argsort_contract argsort -> shape X = [M; m] ->
  opg_subspace eigh argsort lstsq X f weights w = (Ok r, w') -> (2 <= m)%nat /\ (m < M)%nat /\ (17 * m / 10 < M)%nat.
Proof.
  intros eigh argsort lstsq G U X f weights M m w r w' HA HX H. unfold opg_subspace in H.
  apply mbind_ok in H. destruct H as ((((x' & f') & M') & m') & w1 & H1 & H).
  unfold mlift in H1. injection H1 as H1 <-. apply process_io_inv in H1. destruct H1 as (HX' & -> & Hf & ->). rewrite HX in HX'. injection HX' as <- <-.
  apply mbind_ok in H. destruct H as (d & w1 & H1 & H).
  destruct (ll_inv argsort lstsq X f None _ M m w d w1 HX H1) as (pz & MM & rows & E1 & E2 & E3 & E4 & _).
  unfold ll_p in E1. apply Ok_inj in E1. rewrite <- E1 in E2.
  assert (D := Nat.div_mod (17 * m) 10 ltac:(lia)). assert (D' := Nat.mod_upper_bound (17 * m) 10 ltac:(lia)).
  assert (Hq : (m + 1 <= 17 * m / 10)%nat) by lia. set (q := (17 * m / 10)%nat) in *. set (r0 := ((17 * m) mod 10)%nat) in *.
  assert (Hm : (2 <= m)%nat) by lia. split; auto. split; auto.
  destruct (le_lt_dec M q) as [Lm|Lm]; auto. exfalso.
  destruct (ll_MM_pos M m ltac:(lia) ltac:(lia)) as (MM' & EM).
  destruct (ll_p_eq_M_raises argsort HA lstsq X f None (Some weights) M m MM' w HX) as (x & w2 & E); auto.
  - unfold ll_p. fold q. rewrite Nat.min_r by auto. reflexivity.
  - rewrite E in H1. discriminate.
Qed.
Print Assumptions C54_opg_needs.

(** so compute(sstype='OPG') never returns for one input variable *)
Theorem C54_opg_one_variable_raises : forall eigh argsort lstsq norm2 det (G : gen) (U : Type) x f df weights ptype nboot M
    (ws : world G U (nd R) * subspaces), eigh_contract eigh -> argsort_contract argsort ->
  shape x = [M; 1%nat] -> exists err ws', ss_compute eigh argsort lstsq norm2 det (Some x) f df weights "OPG" ptype nboot ws = (Err err, ws') /\ snd ws' = snd ws.
Proof.
  intros eigh argsort lstsq norm2 det G U x f df weights ptype nboot M [w s] HE HA Hx.
  unfold ss_compute. rewrite (process_inputs_eq _ x M 1 Hx). cbn [rbind]. unfold mlift at 1, mbind at 1.
  unfold liftW at 1. cbn [fst snd]. unfold ssmethod at 1. cbn [String.eqb Ascii.eqb Bool.eqb].
  destruct f as [fv|]; [|eexists _, _; split; reflexivity].
  unfold mbind at 1. cbv beta iota zeta. cbn [fst snd]. match goal with |- context [opg_subspace eigh argsort lstsq x fv ?wt w] => destruct (opg_subspace eigh argsort lstsq x fv wt w) as [[r|err] w'] eqn:E end.
  - destruct (C54_opg_needs eigh argsort lstsq G U x fv _ M 1 w r w' HA Hx E) as (B & _). lia.
  - eexists _, _. split; reflexivity.
Qed.
Print Assumptions C54_opg_one_variable_raises.

Example C54_case : exists err ws', ss_compute eigh_ref argsort_ref lstsq_ref norm2_ref det_ref (Some (mat_of [[0]; [1]; [2]; [3]])) (Some (mat_of [[0]; [1]; [2]; [3]])) None None
    "OPG" "EVG" 0 (toy_world (L := nd R) tt, subs_new) = (Err err, ws') /\ snd ws' = subs_new.
Proof. apply (C54_opg_one_variable_raises eigh_ref argsort_ref lstsq_ref norm2_ref det_ref toy_gen unit (mat_of [[0]; [1]; [2]; [3]]) (Some (mat_of [[0]; [1]; [2]; [3]])) None None "EVG" 0%Z 4 (toy_world tt, subs_new) eigh_ref_contract argsort_ref_contract eq_refl). Qed.

(** ** C55 *)
Theorem C55_opg_on_affine_data : forall eigh argsort lstsq (G : gen) (U : Type) X f weights M m (w : world G U (nd R)) e V w' a b,
  eigh_contract eigh -> argsort_contract argsort -> lstsq_contract lstsq ->
  shape X = [M; m] -> shape f = [M; 1%nat] -> shape weights = [M; 1%nat] -> (forall i, (i < M)%nat -> 0 < weights.[i, 0%nat]) ->
  (forall i, (i < M)%nat -> f.[i, 0%nat] = a + sumf m (fun j => b j * X.[i, j])) ->
  (* any floor(1.7 m) of the samples determine an affine function *)
  (forall l, NoDup l -> List.length l = (17 * m / 10)%nat -> (forall k, In k l -> (k < M)%nat) ->
     full_rank (17 * m / 10) (S m) (fun i j => match j with O => 1 | S k => X.[nth i l 0%nat, k] end)) ->
  opg_subspace eigh argsort lstsq X f weights w = (Ok (e, V), w') ->
  e.[0%nat, 0%nat] = sumf m (fun i => b i * b i) /\
  (forall j, (1 <= j)%nat -> (j < m)%nat -> e.[j, 0%nat] = 0) /\
  (sumf m (fun i => b i * b i) <> 0 -> exists s, (s = 1 \/ s = -1) /\
     forall i, (i < m)%nat -> V.[i, 0%nat] = s * (b i / sqrt (sumf m (fun i => b i * b i)))) /\
  (forall j, (j < m)%nat -> 0 <= V.[0%nat, j]).
Proof.
  intros eigh argsort lstsq G U X f weights M m w e V w' a b HE HA HL HX Hf Hw Hp Haff Hgen H.
  destruct (C54_opg_needs eigh argsort lstsq G U X f weights M m w (e, V) w' HA HX H) as (Hm & HM & HpM).
  unfold opg_subspace in H. apply mbind_ok in H. destruct H as ((((x' & f') & M') & m') & w1 & H1 & H).
  unfold mlift in H1. injection H1 as H1 <-. apply process_io_inv in H1. destruct H1 as (HX' & -> & Hf' & ->). rewrite HX in HX'. injection HX' as <- <-.
  apply mbind_ok in H. destruct H as (d & w1 & H1 & H). unfold mlift in H. injection H as H _.
  destruct (ll_affine argsort HA lstsq HL X f None (Some weights) M m w d w1 a b HX Hf) as (MM & Sd & Ed); auto.
  { split; auto. }
  { intros q Hq [(z & E & _)|(_ & ->)]; [discriminate|]. rewrite Nat.min_l in * by lia. exact Hgen. }
  destruct (ll_inv argsort lstsq X f None _ M m w d w1 HX H1) as (pz & MM' & rows & _ & _ & _ & E4 & E5 & _).
  destruct (ll_MM_pos M m ltac:(lia) ltac:(lia)) as (M1 & EM). rewrite EM in E4. injection E4 as <-. rewrite Sd in E5. injection E5 as ->.
  rewrite (nrows_shape2 _ d _ _ Sd) in H.
  destruct (active_subspace_spec eigh argsort HE HA (S M1) m d (mk2 (S M1) 1 (fun _ _ => / INR (S M1))) e V Sd eq_refl H) as (lam & L).
  assert (L' : eigsorted m (fun i k => b i * b k) e V lam).
  { eapply eigsorted_ext; [|exact L]. intros i k Hi Hk. unfold gradC.
    rewrite (sumf_ext (S M1) _ (fun _ => / INR (S M1) * (b i * b k))).
    - rewrite sumf_const. field. apply not_0_INR. lia.
    - intros s Hs. rewrite at_mk2. unfold ent. rewrite !Ed by auto. reflexivity. }
  destruct (rank_one m b e V lam L') as (R1 & R2 & R3). split; [exact R1|]. split; [exact R2|]. split; [exact R3|]. apply (es_row0 _ _ _ _ _ L').
Qed.
Print Assumptions C55_opg_on_affine_data.

Theorem C55_opg_returns : forall eigh argsort lstsq (G : gen) (U : Type) X f weights M m (w : world G U (nd R)),
  eigh_contract eigh -> eigh_total eigh -> argsort_contract argsort -> lstsq_total lstsq ->
  shape X = [M; m] -> shape f = [M; 1%nat] -> shape weights = [M; 1%nat] -> (forall i, (i < M)%nat -> 0 < weights.[i, 0%nat]) ->
  (2 <= m)%nat -> (17 * m / 10 < M)%nat -> distinct_rows X M ->
  exists e V w', opg_subspace eigh argsort lstsq X f weights w = (Ok (e, V), w').
Proof.
  intros eigh argsort lstsq G U X f weights M m w HE HT HA HL HX Hf Hw Hp Hm HpM HD.
  assert (D := Nat.div_mod (17 * m) 10 ltac:(lia)). assert (D' := Nat.mod_upper_bound (17 * m) 10 ltac:(lia)).
  assert (Hq : (m + 1 <= 17 * m / 10)%nat).
  { set (q := (17 * m / 10)%nat) in *. set (r0 := ((17 * m) mod 10)%nat) in *. lia. }
  unfold opg_subspace. rewrite (P_PolyTrain.process_io_eq _ X f M m HX Hf). unfold mlift at 1, mbind at 1.
  assert (EN : local_linear_gradients argsort lstsq X f None (Some weights) w =
    local_linear_gradients argsort lstsq X f (Some (IsA (Z.of_nat (17 * m / 10)))) (Some weights) w).
  { unfold local_linear_gradients. rewrite (process_inputs_eq _ X M m HX). unfold mlift at 1 3, mbind at 1 4.
    unfold ll_p. rewrite Nat.min_l by lia. reflexivity. }
  destruct (C08_returns argsort lstsq G U X f (Some weights) M m (Z.of_nat (17 * m / 10)) w HA HL HX Hf ltac:(lia) ltac:(lia) ltac:(split; auto) HD) as (d & w1 & E).
  unfold mbind at 1. rewrite EN, E.
  destruct (ll_inv argsort lstsq X f _ _ M m w d w1 HX E) as (pz & MM & rows & _ & _ & _ & _ & Sd & _).
  rewrite (nrows_shape2 _ d MM m Sd).
  destruct (active_subspace_returns eigh argsort HE MM m d (mk2 MM 1 (fun _ _ => / INR MM)) HT ltac:(lia) Sd eq_refl) as ((e & V) & EA).
  unfold mlift. rewrite EA. eauto.
Qed.
Print Assumptions C55_opg_returns.

(** f = 1 + 3 x1 - 4 x2 at (0,0), (1,0), (0,1), (1,2) *)
Definition X55 : nd R := mat_of [[0; 0]; [1; 0]; [0; 1]; [1; 2]].
Definition f55 : nd R := mat_of [[1]; [4]; [-3]; [-4]].
Example C55_case : exists e V w', opg_subspace eigh_ref argsort_ref lstsq_ref X55 f55 w14 (toy_world (U := unit) (L := nd R) tt) = (Ok (e, V), w') /\
  e.[0%nat, 0%nat] = 25 /\ e.[1%nat, 0%nat] = 0 /\ V.[0%nat, 0%nat] = 3 / 5 /\ V.[1%nat, 0%nat] = - (4 / 5).
Proof.
  assert (HP : forall i, (i < 4)%nat -> 0 < w14.[i, 0%nat]) by (intros; cbn; lra).
  assert (HD : distinct_rows X55 4).
  { intros i j Hi Hj Hij. unfold sqdist. 
    do 4 (destruct i as [|i]; [do 4 (destruct j as [|j]; [try congruence; cbn; lra|]); lia|]). lia. }
  destruct (C55_opg_returns eigh_ref argsort_ref lstsq_ref toy_gen unit X55 f55 w14 4 2 (toy_world tt)
    eigh_ref_contract eigh_ref_total argsort_ref_contract lstsq_ref_total eq_refl eq_refl eq_refl HP ltac:(lia) ltac:(cbn; lia) HD) as (e & V & w' & E).
  exists e, V, w'. split; auto.
  destruct (C55_opg_on_affine_data eigh_ref argsort_ref lstsq_ref toy_gen unit X55 f55 w14 4 2 (toy_world tt) e V w' 1 (fun j => match j with O => 3 | _ => -4 end)
    eigh_ref_contract argsort_ref_contract lstsq_ref_contract eq_refl eq_refl eq_refl HP) as (E0 & E1 & EV & R0); auto.
  - intros [|[|[|[|i]]]] Hi; try lia; cbn; lra.
  - change (17 * 2 / 10)%nat with 3%nat. intros l ND L Hl x Hx.
    assert (Hrow : forall k, In k l -> x 0%nat + X55.[k, 0%nat] * x 1%nat + X55.[k, 1%nat] * x 2%nat = 0).
    { intros k Hk. destruct (In_nth _ _ 0%nat Hk) as (i & Hi & <-). rewrite <- (Hx i) by lia. cbn [sumf]. ring. }
    assert (Hmiss : forall a b, a <> b -> (a < 4)%nat -> (b < 4)%nat -> In a l \/ In b l).
    { intros a b Hab Ha Hb. destruct (in_dec Nat.eq_dec a l); auto. destruct (in_dec Nat.eq_dec b l); auto. exfalso.
      assert (Hincl : incl (a :: b :: l) (seq 0 4)).
      { intros k [<-|[<-|Hk]]; apply in_seq; try lia. specialize (Hl k Hk). lia. }
      apply NoDup_incl_length in Hincl.
      - rewrite seq_length in Hincl. simpl in Hincl. lia.
      - constructor; [simpl; intuition|constructor; auto]. }
    assert (H01 := Hmiss 0%nat 1%nat ltac:(lia) ltac:(lia) ltac:(lia)).
    assert (H02 := Hmiss 0%nat 2%nat ltac:(lia) ltac:(lia) ltac:(lia)).
    assert (H03 := Hmiss 0%nat 3%nat ltac:(lia) ltac:(lia) ltac:(lia)).
    assert (H12 := Hmiss 1%nat 2%nat ltac:(lia) ltac:(lia) ltac:(lia)).
    assert (H13 := Hmiss 1%nat 3%nat ltac:(lia) ltac:(lia) ltac:(lia)).
    assert (H23 := Hmiss 2%nat 3%nat ltac:(lia) ltac:(lia) ltac:(lia)).
    assert (G : (In 0%nat l /\ In 1%nat l /\ In 2%nat l) \/ (In 0%nat l /\ In 1%nat l /\ In 3%nat l) \/ (In 0%nat l /\ In 2%nat l /\ In 3%nat l) \/ (In 1%nat l /\ In 2%nat l /\ In 3%nat l)) by tauto.
    intros j Hj.
    destruct G as [(A & B & C)|[(A & B & C)|[(A & B & C)|(A & B & C)]]];
      pose proof (Hrow _ A) as R1; pose proof (Hrow _ B) as R2; pose proof (Hrow _ C) as R3; cbn in R1, R2, R3;
      destruct j as [|[|[|j]]]; try lia; lra.
  - assert (N : sumf 2 (fun i => match i with O => 3 | _ => -4 end * match i with O => 3 | _ => -4 end) = 25) by (cbn; ring).
    rewrite N in E0, EV. split; auto. split; [apply E1; lia|].
    destruct (EV ltac:(lra)) as (s & Hs & Vs).
    assert (S5 : sqrt 25 = 5) by (replace 25 with (5 * 5) by ring; apply sqrt_square; lra). rewrite S5 in Vs.
    pose proof (R0 0%nat ltac:(lia)) as P0.
    rewrite (Vs 0%nat), (Vs 1%nat) by lia. rewrite (Vs 0%nat) in P0 by lia.
    destruct Hs as [-> | ->]; [split; field | exfalso; lra].
Qed.
