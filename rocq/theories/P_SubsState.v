(** Facts about the Subspaces object: compute, partition, histories of calls *)
From Coq Require Import String Reals Lra Lia List Arith ZArith Bool.
From Verif Require Import Prelude Py NumArr LinAlg Sorting Spectral M_Misc M_Gradients M_RespSurf M_Subspaces P_Misc P_LocalLinear P_Subspaces.
Import ListNotations.
Open Scope R_scope.

Lemma process_inputs_inv : forall A (X X' : nd A) M m, process_inputs X = Ok (X', M, m) -> shape X = [M; m] /\ X' = X.
Proof.
  intros A X X' M m H. unfold process_inputs in H. destruct (shape X) as [|a [|b [|]]] eqn:E; try discriminate.
  rewrite <- E, reshape_id in H. cbn [rbind] in H. inversion H; subst. auto.
Qed.
Lemma process_io_inv : forall (X f X' f' : nd R) M m, process_inputs_outputs X f = Ok (X', f', M, m) ->
  shape X = [M; m] /\ X' = X /\ shape f = [M; 1%nat] /\ f' = f.
Proof.
  intros X f X' f' M m H. unfold process_inputs_outputs in H.
  apply rbind_ok in H. destruct H as (((X1 & M1) & m1) & H1 & H). apply process_inputs_inv in H1. destruct H1 as (HX & ->).
  destruct (shape f) as [|a [|b [|]]] eqn:E; try discriminate.
  destruct (Nat.eqb_spec a M1) as [->|]; [|discriminate]. destruct (Nat.eqb_spec b 1) as [->|]; [|discriminate]. cbn [negb] in H.
  rewrite <- E, reshape_id in H. cbn [rbind] in H. inversion H; subst. auto.
Qed.

Lemma poly_train_shapes : forall lstsq X f w M m s A, shape X = [M; m] -> poly_train lstsq 2 X f w = Ok s ->
  pa_H s = Some A -> shape A = [m; m] /\ shape (pa_g s) = [m; 1%nat].
Proof.
  intros lstsq X f w M m s A HX Hpr EA. unfold poly_train in Hpr.
  apply rbind_ok in Hpr. destruct Hpr as ((((X1 & f1) & M1) & m1) & H1 & H).
  apply process_io_inv in H1. destruct H1 as (HX1 & -> & Hf1 & ->). rewrite HX in HX1. injection HX1 as <- <-.
  destruct (Nat.ltb M _); [discriminate|].
  apply rbind_ok in H. destruct H as ((B & II) & _ & H).
  apply rbind_ok in H. destruct H as ((B' & f') & _ & H).
  apply rbind_ok in H. destruct H as (pw & _ & H). apply rbind_ok in H. destruct H as (r & _ & H).
  apply rbind_ok in H. destruct H as (d & _ & H). apply rbind_ok in H. destruct H as (pw' & _ & H).
  apply rbind_ok in H. destruct H as (g & Hg & H). apply rbind_ok in H. destruct H as (Hh & HH & H).
  injection H as <-. cbn [pa_H pa_g] in *. subst Hh. change (Nat.ltb 1 2) with true in HH. cbv iota in HH.
  apply rbind_ok in HH. destruct HH as (h & _ & HH). injection HH as <-. split; auto.
  apply (reshape_inv _ _ _ _ Hg).
Qed.

Section State.
  Context {G : gen} {U : Type}.
  Notation W := (world G U (nd R)).
  Variable eigh : nd R -> res (nd R * nd R).
  Variable argsort : list R -> list nat.
  Variable lstsq : nd R -> nd R -> res (nd R).
  Variable norm2 : nd R -> R.
  Variable det : nd R -> R.
  Hypothesis Heigh : eigh_contract eigh.
  Hypothesis Hsort : argsort_contract argsort.
  Notation St := (W * subspaces)%type.

  (** the columns of the data the method works on *)
  Definition method_dim (sstype : string) (X df : option (nd R)) (m : nat) : Prop :=
    if String.eqb sstype "AS" then exists d M, df = Some d /\ shape d = [M; m]
    else exists x M, X = Some x /\ shape x = [M; m].

  (** every subspace method answers with a sorted orthogonal eigenbasis *)
  Lemma ssmethod_ok : forall sstype X f df weights (w : W) e V w',
    ssmethod eigh argsort lstsq sstype X f df weights w = (Ok (e, V), w') ->
    exists m C lam, method_dim sstype X df m /\ eigsorted m C e V lam.
  Proof.
    intros sstype X f df weights w e V w' H. unfold ssmethod in H. unfold method_dim.
    assert (AS : forall d wt e V, active_subspace eigh argsort d wt = Ok (e, V) ->
      exists M m C lam, shape d = [M; m] /\ eigsorted m C e V lam).
    { clear - Heigh Hsort. intros d wt e V H. unfold active_subspace in H. apply rbind_ok in H. destruct H as (((d' & M) & m) & H1 & H).
      apply process_inputs_inv in H1. destruct H1 as (HX & ->).
      apply rbind_ok in H. destruct H as (dw & H1 & H). apply rbind_ok in H. destruct H as (C & H2 & H).
      destruct (sorted_eigh_gen eigh argsort Heigh Hsort C e V H) as (k & lam & HC & HE).
      assert (k = m).
      { unfold mdot in H2. cbn [shape tr mk2] in H2. rewrite (ncols_shape2 _ d M m HX), (nrows_shape2 _ d M m HX) in H2.
        destruct (shape dw) as [|a [|b [|]]]; try discriminate. destruct (Nat.eqb M a); [|discriminate].
        inversion H2; subst C. cbn in HC. congruence. }
      subst k. exists M, m, (lower (ent C)), lam. auto. }
    destruct (String.eqb sstype "AS").
    { destruct df as [d|]; [|discriminate]. unfold mlift in H. injection H as H _.
      destruct (AS _ _ _ _ H) as (M & m & C & lam & H1 & H2). exists m, C, lam. split; auto. exists d, M. auto. }
    destruct (String.eqb sstype "OLS").
    { destruct X as [x|]; [|discriminate]. destruct f as [fv|]; [|discriminate]. unfold mlift in H. injection H as H _.
      unfold ols_subspace in H. apply rbind_ok in H. destruct H as ((((x' & f') & M) & m) & H1 & H).
      apply process_io_inv in H1. destruct H1 as (HX & -> & Hf & ->).
      apply rbind_ok in H. destruct H as (A0 & _ & H). apply rbind_ok in H. destruct H as (A & _ & H).
      apply rbind_ok in H. destruct H as (b & _ & H). apply rbind_ok in H. destruct H as (u & _ & H).
      apply rbind_ok in H. destruct H as (v & Hv & H). apply rbind_ok in H. destruct H as (C & HC & H).
      destruct (reshape_inv _ _ _ _ Hv) as (_ & Sv).
      destruct (sorted_eigh_gen eigh argsort Heigh Hsort C e V H) as (k & lam & HCs & HE).
      assert (k = m).
      { unfold mdot in HC. rewrite Sv in HC. cbn [shape tr mk2] in HC. rewrite (ncols_shape2 _ v m 1 Sv), (nrows_shape2 _ v m 1 Sv) in HC.
        cbn in HC. inversion HC; subst C. cbn in HCs. congruence. }
      subst k. exists m, (lower (ent C)), lam. split; auto. exists x, M. auto. }
    destruct (String.eqb sstype "QPHD").
    { destruct X as [x|]; [|discriminate]. destruct f as [fv|]; [|discriminate]. unfold mlift in H. injection H as H _.
      unfold qphd_subspace in H. apply rbind_ok in H. destruct H as ((((x' & f') & M) & m) & H1 & H).
      apply process_io_inv in H1. destruct H1 as (HX & -> & Hf & ->).
      apply rbind_ok in H. destruct H as (big & _ & H). apply rbind_ok in H. destruct H as (pr & Hpr & H).
      destruct (pa_H pr) as [A|] eqn:EA; [|discriminate].
      apply rbind_ok in H. destruct H as (AA & HAA & H). apply rbind_ok in H. destruct H as (C & HC & H).
      destruct (sorted_eigh_gen eigh argsort Heigh Hsort C e V H) as (k & lam & HCs & HE).
      destruct (poly_train_shapes lstsq x fv _ M m pr A HX Hpr EA) as (SA & Sg).
      assert (k = m).
      { assert (Strv : shape (tr A) = [m; m]).
        { unfold tr. rewrite shape_mk2, (nrows_shape2 _ A m m SA), (ncols_shape2 _ A m m SA). reflexivity. }
        rewrite (mdot_ok A (tr A) m m m SA Strv) in HAA. injection HAA as <-.
        assert (Esz : size (pa_g pr) = m) by (unfold size; rewrite Sg; simpl; lia). rewrite Esz in HC.
        match type of HC with bcast2 _ ?P ?Q = _ => destruct (bcast2_same _ _ _ Rplus P Q m m eq_refl eq_refl) as (C' & E1 & E2 & E3) end.
        rewrite E1 in HC. injection HC as <-. congruence. }
      subst k. exists m, (lower (ent C)), lam. split; auto. exists x, M. auto. }
    destruct (String.eqb sstype "OPG"); [|discriminate].
    destruct X as [x|]; [|discriminate]. destruct f as [fv|]; [|discriminate].
    unfold opg_subspace in H. apply mbind_ok in H. destruct H as ((((x' & f') & M) & m) & w1 & H1 & H).
    unfold mlift in H1. injection H1 as H1 <-. apply process_io_inv in H1. destruct H1 as (HX & -> & Hf & ->).
    apply mbind_ok in H. destruct H as (d & w1 & H1 & H). unfold mlift in H. injection H as H _.
    destruct (ll_inv argsort lstsq x fv None _ M m w d w1 HX H1) as (pz & MM & rows & _ & _ & _ & _ & Sd & _).
    destruct (AS _ _ _ _ H) as (M' & m' & C & lam & HS & HE). rewrite Sd in HS. injection HS as <- <-.
    exists m, C, lam. split; auto. exists x, M. auto.
  Qed.

  (** ** partition *)
  (** A is the first n and B the remaining columns of the m-by-m matrix V *)
  Definition splits (m n : nat) (V A B : nd R) : Prop :=
    shape V = [m; m] /\ (1 <= n <= m)%nat /\ shape A = [m; n] /\ shape B = [m; (m - n)%nat] /\
    (forall i j, (i < m)%nat -> (j < n)%nat -> A.[i, j] = V.[i, j]) /\
    (forall i j, (i < m)%nat -> (j < m - n)%nat -> B.[i, j] = V.[i, (n + j)%nat]).

  (** a square matrix with orthonormal columns *)
  Definition square (V : nd R) : Prop := exists m, (1 <= m)%nat /\ shape V = [m; m] /\ orthonormal m m (ent V).

  Lemma ss_partition_ok : forall a (ws : St) r ws', ss_partition a ws = (Ok r, ws') ->
    exists n V A B, a = IsA n /\ s_eigenvecs (snd ws) = Some V /\ fst ws' = fst ws /\
      snd ws' = Subs (s_eigenvals (snd ws)) (Some V) (Some A) (Some B) (s_e_br (snd ws)) (s_sub_br (snd ws)) /\
      (1 <= n <= Z.of_nat (nrows V))%Z /\
      (forall m, shape V = [m; m] -> splits m (Z.to_nat n) V A B).
  Proof.
    intros a [w s] r ws' H. unfold ss_partition in H. destruct a as [n|]; [|discriminate].
    unfold mbind, getS in H. cbn [snd] in H. destruct (s_eigenvecs s) as [V|] eqn:EV; [|discriminate].
    destruct (Z.ltb_spec n 1); [discriminate|]. destruct (Z.ltb_spec (Z.of_nat (nrows V)) n); [discriminate|]. cbn [orb] in H.
    inversion H; subst. eexists _, V, _, _. split; [reflexivity|]. split; auto. split; auto. split; [reflexivity|]. split; [lia|].
    intros m HV. rewrite (nrows_shape2 _ V m m HV) in *.
    unfold splits, cols_slice. rewrite !shape_mk2, (nrows_shape2 _ V m m HV), (ncols_shape2 _ V m m HV).
    split; auto. split; [lia|]. split; [do 2 f_equal; lia|]. split; [do 2 f_equal; lia|]. split; intros; now rewrite at_mk2.
  Qed.

  Lemma ss_partition_err : forall a (ws : St) e ws', ss_partition a ws = (Err e, ws') -> ws' = ws.
  Proof.
    intros a [w s] e ws' H. unfold ss_partition in H. destruct a as [n|]; [|inversion H; auto].
    unfold mbind, getS in H. cbn [snd] in H. destruct (s_eigenvecs s) as [V|]; [|inversion H; auto].
    destruct (_ || _)%bool; inversion H; auto.
  Qed.

  (** partition(n) succeeds exactly for integers between 1 and m *)
  Lemma ss_partition_iff : forall a (ws : St), 
    (exists ws', ss_partition a ws = (Ok tt, ws')) <->
    exists n V, a = IsA n /\ s_eigenvecs (snd ws) = Some V /\ (1 <= n <= Z.of_nat (nrows V))%Z.
  Proof.
    intros a ws. split.
    - intros (ws' & H). destruct (ss_partition_ok a ws tt ws' H) as (n & V & A & B & H1 & H2 & _ & _ & H3 & _). eauto.
    - intros (n & V & -> & HV & Hn). destruct ws as [w s]. cbn [snd] in *. unfold ss_partition, mbind, getS. cbn [snd]. rewrite HV.
      destruct (Z.ltb_spec n 1); [lia|]. destruct (Z.ltb_spec (Z.of_nat (nrows V)) n); [lia|]. cbn [orb]. unfold setS. eauto.
  Qed.

  (** ** compute *)
  Definition wdefault (M : nat) (weights : option (nd R)) : nd R :=
    match weights with None => mk2 M 1 (fun _ _ => / INR M) | Some w => w end.

  (** how a successful compute went *)
  Lemma ss_compute_ok : forall X f df weights sstype ptype nboot (ws : St) r ws',
    ss_compute eigh argsort lstsq norm2 det X f df weights sstype ptype nboot ws = (Ok r, ws') ->
    exists M m e V w1 br n A B k,
      (match X, df with Some x, _ => shape x = [M; m] | None, Some d => shape d = [M; m] | None, None => False end) /\
      ssmethod eigh argsort lstsq sstype X f df (wdefault M weights) (fst ws) = (Ok (e, V), w1) /\
      (if Z.ltb 0 nboot
       then exists b, br = Some b /\ bootstrap_ranges norm2 det e V X f df (wdefault M weights) (ssmethod eigh argsort lstsq sstype) (Z.to_nat nboot) w1 = (Ok b, fst ws')
       else br = None /\ fst ws' = w1) /\
      choose_dim ptype m e br = Ok n /\ splits k (Z.to_nat n) V A B /\ (1 <= n)%Z /\ method_dim sstype X df k /\
      snd ws' = Subs (Some e) (Some V) (Some A) (Some B)
        (match br with Some (a, _, _) => Some a | None => None end) (match br with Some (_, b, _) => Some b | None => None end).
  Proof.
    intros X f df weights sstype ptype nboot [w s] r ws' H. unfold ss_compute in H.
    apply mbind_ok in H. destruct H as ((((X1 & df1) & M) & m) & w1 & H1 & H). unfold mlift in H1. injection H1 as H1 <-.
    assert (HXD : X1 = X /\ df1 = df /\ match X, df with Some x, _ => shape x = [M; m] | None, Some d => shape d = [M; m] | None, None => False end).
    { destruct X as [x|].
      - apply rbind_ok in H1. destruct H1 as (((x' & M') & m') & Hp & HH). inversion HH; subst.
        apply process_inputs_inv in Hp. destruct Hp as (? & ->). auto.
      - destruct df as [d|]; [|discriminate].
        apply rbind_ok in H1. destruct H1 as (((x' & M') & m') & Hp & HH). inversion HH; subst.
        apply process_inputs_inv in Hp. destruct Hp as (? & ->). auto. }
    destruct HXD as (-> & -> & HXD). clear H1. fold (wdefault M weights) in H.
    apply mbind_ok in H. destruct H as ((e & V) & ws1 & H1 & H).
    unfold liftW in H1. cbn [fst snd] in H1.
    destruct (ssmethod eigh argsort lstsq sstype X f df (wdefault M weights) w) as [rm wm] eqn:EM. inversion H1; subst rm ws1; clear H1.
    destruct (ssmethod_ok _ _ _ _ _ _ _ _ _ EM) as (k & C & lam & Hdim & HE).
    unfold mbind at 1, getS at 1 in H. cbn [snd fst] in H. unfold mbind at 1, setS at 1 in H. cbn [snd fst] in H.
    apply mbind_ok in H. destruct H as (br & ws2 & H1 & H).
    unfold mbind at 1, getS at 1 in H. unfold mbind at 1, setS at 1 in H. cbn [snd fst] in H.
    apply mbind_ok in H. destruct H as (n & ws3 & H2 & H). unfold mlift in H2. injection H2 as H2 <-.
    destruct (ss_partition_ok _ _ _ _ H) as (n' & V' & A & B & E1 & E2 & E3 & E4 & E5 & E6). injection E1 as <-.
    cbn [snd fst s_eigenvecs s_eigenvals s_e_br s_sub_br] in *.
    assert (HS2 : snd ws2 = Subs (Some e) (Some V) (s_W1 s) (s_W2 s) (s_e_br s) (s_sub_br s) /\
      if Z.ltb 0 nboot
       then exists b, br = Some b /\ bootstrap_ranges norm2 det e V X f df (wdefault M weights) (ssmethod eigh argsort lstsq sstype) (Z.to_nat nboot) wm = (Ok b, fst ws2)
       else br = None /\ fst ws2 = wm).
    { destruct (Z.ltb 0 nboot).
      - apply mbind_ok in H1. destruct H1 as (b & ws4 & H1 & H3). inversion H3; subst.
        unfold liftW in H1. cbn [fst snd] in H1. destruct (bootstrap_ranges _ _ _ _ _ _ _ _ _ _ _) as [rb wb] eqn:EB.
        inversion H1; subst. cbn [fst snd]. split; auto. exists b. split; auto.
      - destruct (_ || _)%bool; [discriminate|]. inversion H1; subst. cbn [fst snd]. auto. }
    destruct HS2 as (ES & HB). rewrite ES in E2, E4. cbn [s_eigenvecs s_eigenvals] in E2, E4. injection E2 as <-.
    exists M, m, e, V, wm, br, n, A, B, k. split; auto. split; auto. split.
    { rewrite E3. exact HB. }
    split; auto. split; [apply E6; apply (es_V _ _ _ _ _ HE)|]. split; [lia|]. split; auto.
  Qed.

  (** a failing compute leaves W1 and W2 alone; eigenvecs is unchanged or a square matrix *)
  Lemma ss_compute_err : forall X f df weights sstype ptype nboot (ws : St) x ws',
    ss_compute eigh argsort lstsq norm2 det X f df weights sstype ptype nboot ws = (Err x, ws') ->
    s_W1 (snd ws') = s_W1 (snd ws) /\ s_W2 (snd ws') = s_W2 (snd ws) /\
    (s_eigenvecs (snd ws') = s_eigenvecs (snd ws) \/ exists V, s_eigenvecs (snd ws') = Some V /\ square V).
  Proof.
    intros X f df weights sstype ptype nboot [w s] x ws' H. unfold ss_compute in H. cbn [snd].
    apply mbind_err in H. destruct H as [H|((((X1 & df1) & M) & m) & w1 & H1 & H)].
    { unfold mlift in H. injection H as _ <-. auto. }
    unfold mlift in H1. injection H1 as H1 <-. clear H1. fold (wdefault M weights) in H.
    apply mbind_err in H. destruct H as [H|((e & V) & ws1 & H1 & H)].
    { unfold liftW in H. cbn [fst snd] in H. destruct (ssmethod _ _ _ _ _ _ _ _ w) as [rm wm]. inversion H; subst. auto. }
    unfold liftW in H1. cbn [fst snd] in H1.
    destruct (ssmethod eigh argsort lstsq sstype X1 f df1 (wdefault M weights) w) as [rm wm] eqn:EM. inversion H1; subst rm ws1; clear H1.
    destruct (ssmethod_ok _ _ _ _ _ _ _ _ _ EM) as (k & C & lam & Hdim & HE).
    assert (SQ : square V) by (exists k; split; [apply (es_m _ _ _ _ _ HE)|split; [apply (es_V _ _ _ _ _ HE)|apply (es_orth _ _ _ _ _ HE)]]).
    unfold mbind at 1, getS at 1 in H. cbn [snd fst] in H. unfold mbind at 1, setS at 1 in H. cbn [snd fst] in H.
    apply mbind_err in H. destruct H as [H|(br & ws2 & H1 & H)].
    { assert (ES : snd ws' = Subs (Some e) (Some V) (s_W1 s) (s_W2 s) (s_e_br s) (s_sub_br s)).
      { destruct (Z.ltb 0 nboot).
        - apply mbind_err in H. destruct H as [H|(b & ws4 & H1 & H3)]; [|discriminate].
          unfold liftW in H. cbn [fst snd] in H. destruct (bootstrap_ranges _ _ _ _ _ _ _ _ _ _ _) as [rb wb].
          inversion H; subst. reflexivity.
        - destruct (_ || _)%bool; inversion H; subst; reflexivity. }
      rewrite ES. cbn [snd s_W1 s_W2 s_eigenvecs]. split; [reflexivity|]. split; [reflexivity|]. right. exists V. auto. }
    assert (ES : snd ws2 = Subs (Some e) (Some V) (s_W1 s) (s_W2 s) (s_e_br s) (s_sub_br s)).
    { destruct (Z.ltb 0 nboot).
      - apply mbind_ok in H1. destruct H1 as (b & ws4 & H1 & H3). inversion H3; subst.
        unfold liftW in H1. cbn [fst snd] in H1. destruct (bootstrap_ranges _ _ _ _ _ _ _ _ _ _ _) as [rb wb].
        inversion H1; subst. reflexivity.
      - destruct (_ || _)%bool; inversion H1; subst; reflexivity. }
    unfold mbind at 1, getS at 1 in H. unfold mbind at 1, setS at 1 in H. cbn [snd fst] in H. rewrite ES in H. cbn [s_eigenvals s_eigenvecs s_W1 s_W2] in H.
    apply mbind_err in H. destruct H as [H|(n & ws3 & H2 & H)].
    { unfold mlift in H. injection H as _ <-. cbn [snd s_W1 s_W2 s_eigenvecs]. split; [reflexivity|]. split; [reflexivity|]. right. exists V. auto. }
    unfold mlift in H2. injection H2 as _ <-. apply ss_partition_err in H. subst ws'. cbn [snd s_W1 s_W2 s_eigenvecs]. split; [reflexivity|]. split; [reflexivity|]. right. exists V. auto.
  Qed.

  (** ** Histories *)
  Inductive call : Type :=
  | Compute (X f df weights : option (nd R)) (sstype ptype : string) (nboot : Z)
  | Partition (n : pyarg Z).
  Definition exec (c : call) : M St unit :=
    match c with
    | Compute X f df weights sstype ptype nboot => ss_compute eigh argsort lstsq norm2 det X f df weights sstype ptype nboot
    | Partition n => ss_partition n
    end.
  (** the state after a history of calls; exceptions are caught by the caller *)
  Definition run (h : list call) (ws : St) : St := fold_left (fun ws c => snd (exec c ws)) h ws.

  (** either nothing has been computed, or W1 and W2 split the current eigenvectors *)
  Definition consistent (s : subspaces) : Prop :=
    match s_eigenvecs s with
    | None => s_W1 s = None /\ s_W2 s = None
    | Some V => exists m n A B, s_W1 s = Some A /\ s_W2 s = Some B /\ splits m n V A B
    end.
  Definition wf_state (s : subspaces) : Prop := forall V, s_eigenvecs s = Some V -> square V.

  Lemma exec_wf : forall c ws, wf_state (snd ws) -> wf_state (snd (snd (exec c ws))).
  Proof.
    intros c ws Hwf. destruct (exec c ws) as [[r|x] ws'] eqn:E; cbn [snd]; destruct c; cbn [exec] in E.
    - destruct (ss_compute_ok _ _ _ _ _ _ _ _ _ _ E) as (M & m & e & V & w1 & br & n & A & B & k & _ & EM & _ & _ & HS & _ & _ & ES).
      rewrite ES. intros V' HV'. cbn in HV'. injection HV' as <-. destruct (ssmethod_ok _ _ _ _ _ _ _ _ _ EM) as (q & C & lam & _ & HE).
      exists q. split; [apply (es_m _ _ _ _ _ HE)|split; [apply (es_V _ _ _ _ _ HE)|apply (es_orth _ _ _ _ _ HE)]].
    - destruct (ss_partition_ok _ _ _ _ E) as (n' & V & A & B & _ & HV & _ & ES & _). rewrite ES. intros V' HV'. cbn in HV'. injection HV' as <-. auto.
    - destruct (ss_compute_err _ _ _ _ _ _ _ _ _ _ E) as (_ & _ & [EV|(V & EV & HV)]); intros V' HV'.
      + apply Hwf. now rewrite <- EV.
      + rewrite EV in HV'. injection HV' as <-. auto.
    - apply ss_partition_err in E. subst. auto.
  Qed.

  Lemma run_wf : forall h ws, wf_state (snd ws) -> wf_state (snd (run h ws)).
  Proof. induction h as [|c h IH]; intros ws H; simpl; auto. apply IH, exec_wf, H. Qed.

  Lemma new_wf : wf_state subs_new.  Proof. intros V H. discriminate. Qed.

  Lemma exec_ok_consistent : forall c ws ws', wf_state (snd ws) -> exec c ws = (Ok tt, ws') ->
    consistent (snd ws') /\ s_eigenvecs (snd ws') <> None.
  Proof.
    intros c ws ws' Hwf E. destruct c; cbn [exec] in E.
    - destruct (ss_compute_ok _ _ _ _ _ _ _ _ _ _ E) as (M & m & e & V & w1 & br & n & A & B & k & _ & _ & _ & _ & HS & _ & _ & ES).
      rewrite ES. unfold consistent. cbn. split; [|discriminate]. exists k, (Z.to_nat n), A, B. auto.
    - destruct (ss_partition_ok _ _ _ _ E) as (n' & V & A & B & _ & HV & _ & ES & _ & HS). rewrite ES. unfold consistent. cbn.
      split; [|discriminate]. destruct (Hwf V HV) as (m & _ & Hm & _). exists m, (Z.to_nat n'), A, B. auto.
  Qed.

  Lemma exec_err_keeps : forall c ws x ws', exec c ws = (Err x, ws') ->
    s_W1 (snd ws') = s_W1 (snd ws) /\ s_W2 (snd ws') = s_W2 (snd ws).
  Proof.
    intros c ws x ws' E. destruct c; cbn [exec] in E.
    - destruct (ss_compute_err _ _ _ _ _ _ _ _ _ _ E) as (A & B & _). auto.
    - apply ss_partition_err in E. subst. auto.
  Qed.
  (** whatever happened, W1 and W2 split an orthogonal matrix *)
  Definition split_some (s : subspaces) : Prop :=
    (s_W1 s = None /\ s_W2 s = None) \/
    exists m n V A B, s_W1 s = Some A /\ s_W2 s = Some B /\ splits m n V A B /\ orthonormal m m (ent V).

  Lemma exec_split_some : forall c ws, wf_state (snd ws) -> split_some (snd ws) -> split_some (snd (snd (exec c ws))).
  Proof.
    intros c ws Hwf Hs. destruct (exec c ws) as [[[]|x] ws'] eqn:E; cbn [snd].
    - destruct (exec_ok_consistent c ws ws' Hwf E) as (Hc & HN).
      assert (Hwf' := exec_wf c ws Hwf). rewrite E in Hwf'. cbn [snd] in Hwf'.
      unfold consistent in Hc. destruct (s_eigenvecs (snd ws')) as [V|] eqn:EV; [|congruence].
      destruct Hc as (m & n & A & B & HA & HB & HS). destruct (Hwf' V EV) as (q & _ & Sq & HO).
      right. exists m, n, V, A, B. split; auto. split; auto. split; auto. destruct HS as (HS & _). rewrite HS in Sq. injection Sq as <-. exact HO.
    - destruct (exec_err_keeps c ws x ws' E) as (E1 & E2). unfold split_some. rewrite E1, E2. exact Hs.
  Qed.
  Lemma run_split_some : forall h ws, wf_state (snd ws) -> split_some (snd ws) -> split_some (snd (run h ws)).
  Proof. induction h as [|c h IH]; intros ws H1 H2; simpl; auto. apply IH; [apply exec_wf|apply exec_split_some]; auto. Qed.

  (** consistency survives any call except a failing one that replaces the eigenvectors *)
  Lemma exec_consistent : forall c ws, wf_state (snd ws) -> consistent (snd ws) ->
    (forall x ws', exec c ws = (Err x, ws') -> s_eigenvecs (snd ws') = s_eigenvecs (snd ws)) ->
    consistent (snd (snd (exec c ws))).
  Proof.
    intros c ws Hwf Hc Hk. destruct (exec c ws) as [[[]|x] ws'] eqn:E; cbn [snd].
    - apply (exec_ok_consistent c ws ws' Hwf E).
    - destruct (exec_err_keeps c ws x ws' E) as (E1 & E2). unfold consistent. rewrite (Hk x ws' eq_refl), E1, E2. exact Hc.
  Qed.
End State.
