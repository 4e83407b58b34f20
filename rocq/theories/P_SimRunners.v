(** Proofs about utils/simrunners.py *)
From Coq Require Import Reals Lra Lia List Arith ZArith String Bool.
From Verif Require Import Prelude Py NumArr M_Misc M_SimRunners P_Misc.
Import ListNotations.
Open Scope R_scope.

Section Trace.
  Context {G : gen} {U : Type} {B : Type}.
  Notation W := (world G U (nd R)).
  Variable f : ufun (U:=U) (nd R) (nd R).
  Variable row : nat -> nd R.
  Variable post : nd R -> res B.
  Variable d : B.

  Let body (i : nat) : M W B := dom v <- ucall f (row i); mlift (post v).

  (** One full pass, or a pass that stops at call [k]. *)
  Definition pass_ok (s n : nat) (w : W) (us : nat -> U) (l : list B) (w' : W) : Prop :=
    w' = World (rng w) (us n) (calls w ++ map row (seq s n)) (files w) /\
    List.length l = n /\
    forall i, (i < n)%nat -> exists v, f (row (s + i)) (us i) = (Ok v, us (S i)) /\ post v = Ok (nth i l d).
  Definition pass_err (s n : nat) (w : W) (us : nat -> U) (k : nat) (e : exn) (w' : W) : Prop :=
    (k < n)%nat /\
    w' = World (rng w) (us (S k)) (calls w ++ map row (seq s (S k))) (files w) /\
    (forall i, (i < k)%nat -> exists v b, f (row (s + i)) (us i) = (Ok v, us (S i)) /\ post v = Ok b) /\
    (f (row (s + k)) (us k) = (Err e, us (S k)) \/
     exists v, f (row (s + k)) (us k) = (Ok v, us (S k)) /\ post v = Err e).

  Lemma mmap_trace : forall n s w, exists us, us O = usr w /\
    ((exists l w', mmap body (seq s n) w = (Ok l, w') /\ pass_ok s n w us l w') \/
     (exists k e w', mmap body (seq s n) w = (Err e, w') /\ pass_err s n w us k e w')).
  Proof.
    induction n as [|n IH]; intros s w.
    - exists (fun _ => usr w). split; auto. left. exists [], w. split; [reflexivity|]. split.
      + simpl. rewrite app_nil_r. destruct w; reflexivity.
      + split; [reflexivity|]. intros; lia.
    - destruct (f (row s) (usr w)) as [r u1] eqn:Ef.
      set (w1 := World (rng w) u1 (calls w ++ [row s]) (files w)).
      assert (Hu : ucall f (row s) w = (r, w1)) by (unfold ucall; rewrite Ef; reflexivity).
      simpl seq. simpl mmap.
      (* failing first step *)
      assert (FAIL : forall e, (r = Err e \/ exists v, r = Ok v /\ post v = Err e) -> body s w = (Err e, w1) ->
         exists us, us O = usr w /\
    ((exists l w', (dom y <- body s; dom ys <- mmap body (seq (S s) n); mret (y :: ys)) w = (Ok l, w') /\ pass_ok s (S n) w us l w') \/
     (exists k e0 w', (dom y <- body s; dom ys <- mmap body (seq (S s) n); mret (y :: ys)) w = (Err e0, w') /\ pass_err s (S n) w us k e0 w'))).
      { intros e He Hb. exists (fun i => match i with O => usr w | _ => u1 end). split; auto. right.
        exists O, e, w1. split.
        - unfold mbind at 1. rewrite Hb. reflexivity.
        - repeat split; auto; try lia. rewrite Nat.add_0_r.
          destruct He as [->|(v & -> & Hv)]; [left; exact Ef|right; exists v; auto]. }
      destruct r as [v|e].
      + destruct (post v) as [b|e] eqn:Ep.
        * assert (Hb : body s w = (Ok b, w1)) by (unfold body, mbind; rewrite Hu; unfold mlift; rewrite Ep; reflexivity).
          destruct (IH (S s) w1) as (us & Hus & HH).
          exists (fun i => match i with O => usr w | S j => us j end). split; auto.
          simpl in Hus.
          destruct HH as [(l & w' & Hm & (P1 & P2 & P3))|(k & e & w' & Hm & (P1 & P2 & P3 & P4))].
          -- left. exists (b :: l), w'. split.
             ++ unfold mbind at 1. rewrite Hb. unfold mbind. rewrite Hm. reflexivity.
             ++ split; [|split].
                ** rewrite P1. simpl. now rewrite <- app_assoc.
                ** simpl; now rewrite P2.
                ** intros i Hi. destruct i as [|i].
                   --- rewrite Nat.add_0_r. exists v. rewrite Hus. auto.
                   --- destruct (P3 i ltac:(lia)) as (v' & Q1 & Q2).
                       replace (s + S i)%nat with (S s + i)%nat by lia. exists v'. auto.
          -- right. exists (S k), e, w'. split.
             ++ unfold mbind at 1. rewrite Hb. unfold mbind. rewrite Hm. reflexivity.
             ++ split; [lia|]. split; [|split].
                ** rewrite P2. simpl. now rewrite <- app_assoc.
                ** intros i Hi. destruct i as [|i].
                   --- rewrite Nat.add_0_r. exists v, b. rewrite Hus. auto.
                   --- destruct (P3 i ltac:(lia)) as (v' & b' & Q1 & Q2).
                       replace (s + S i)%nat with (S s + i)%nat by lia. exists v', b'. auto.
                ** replace (s + S k)%nat with (S s + k)%nat by lia. exact P4.
        * apply (FAIL e); [right; eauto|]. unfold body, mbind; rewrite Hu; unfold mlift; rewrite Ep; reflexivity.
      + apply (FAIL e); [left; auto|]. unfold body, mbind; rewrite Hu; reflexivity.
  Qed.
End Trace.

Lemma as_scalar_ok : forall v x, as_scalar v = Ok x <-> size v = 1%nat /\ x = flat v 0.
Proof.
  intros v x. unfold as_scalar, flat. destruct (Nat.eqb_spec (size v) 1); split.
  - intros H; inversion H; auto.
  - intros [_ ->]; reflexivity.
  - discriminate.
  - intros [H _]; contradiction.
Qed.
Lemma as_scalar_err : forall v e, as_scalar v = Err e <-> size v <> 1%nat /\ e = ValueError.
Proof.
  intros v e. unfold as_scalar. destruct (Nat.eqb_spec (size v) 1); split.
  - discriminate.
  - intros [H _]; contradiction.
  - intros H; inversion H; auto.
  - intros [_ ->]; reflexivity.
Qed.

Section Run.
  Context {G : gen} {U : Type}.
  Notation W := (world G U (nd R)).
  Variable f : ufun (U:=U) (nd R) (nd R).

  (** row [i] of X as a 1-by-m array *)
  Definition rowarr (X : nd R) (i : nat) : nd R := mk2 1 (ncols X) (fun _ j => X.[i, j]).

  Lemma sim_run_trace : forall (X : nd R) M m (w : W), shape X = [M; m] ->
    exists us, us O = usr w /\
    ((exists F w', sim_run f X w = (Ok F, w') /\ shape F = [M; 1%nat] /\
        w' = World (rng w) (us M) (calls w ++ map (rowarr X) (seq 0 M)) (files w) /\
        forall i, (i < M)%nat -> exists v,
          f (rowarr X i) (us i) = (Ok v, us (S i)) /\ size v = 1%nat /\ F.[i, 0%nat] = flat v 0) \/
     (exists k e w', (k < M)%nat /\ sim_run f X w = (Err e, w') /\
        w' = World (rng w) (us (S k)) (calls w ++ map (rowarr X) (seq 0 (S k))) (files w) /\
        (forall i, (i < k)%nat -> exists v, f (rowarr X i) (us i) = (Ok v, us (S i)) /\ size v = 1%nat) /\
        (f (rowarr X k) (us k) = (Err e, us (S k)) \/
         exists v, f (rowarr X k) (us k) = (Ok v, us (S k)) /\ size v <> 1%nat /\ e = ValueError))).
  Proof.
    intros X M m w HX.
    destruct (mmap_trace (G:=G) f (row2 X) as_scalar 0 M 0 w) as (us & H0 & [(l & w' & Hm & (P1 & P2 & P3))|(k & e & w' & Hm & (P1 & P2 & P3 & P4))]).
    - exists us. split; auto. left. exists (mk2 M 1 (fun i _ => nth i l 0)), w'.
      split; [|split; [reflexivity|split]].
      + unfold sim_run. rewrite (process_inputs_eq _ X M m HX). unfold mbind at 1, mlift at 1.
        unfold mbind at 1. rewrite Hm. reflexivity.
      + exact P1.
      + intros i Hi. destruct (P3 i Hi) as (v & Q1 & Q2). apply as_scalar_ok in Q2. exists v. split; [exact Q1|].
        destruct Q2. split; auto.
    - exists us. split; auto. right. exists k, e, w'. split; auto. split; [|split; [exact P2|split]].
      + unfold sim_run. rewrite (process_inputs_eq _ X M m HX). unfold mbind at 1, mlift at 1.
        unfold mbind at 1. rewrite Hm. reflexivity.
      + intros i Hi. destruct (P3 i Hi) as (v & b & Q1 & Q2). apply as_scalar_ok in Q2. exists v. tauto.
      + destruct P4 as [P4|(v & Q1 & Q2)]; [left; exact P4|]. right. apply as_scalar_err in Q2. exists v. tauto.
  Qed.

  Lemma sim_run_bad : forall (X : nd R) (w : W), rank X <> 2%nat -> sim_run f X w = (Err ValueError, w).
  Proof. intros X w H. unfold sim_run, mbind, mlift. rewrite process_inputs_err by auto. reflexivity. Qed.

  Lemma simgrad_run_trace : forall (X : nd R) M m (w : W), shape X = [M; m] ->
    exists us, us O = usr w /\
    ((exists D w', simgrad_run f X w = (Ok D, w') /\ shape D = [M; m] /\
        w' = World (rng w) (us M) (calls w ++ map (rowarr X) (seq 0 M)) (files w) /\
        forall i, (i < M)%nat -> exists v,
          f (rowarr X i) (us i) = (Ok v, us (S i)) /\ size v = m /\
          forall j, (j < m)%nat -> D.[i, j] = flat v j) \/
     (exists k e w', (k < M)%nat /\ simgrad_run f X w = (Err e, w') /\
        w' = World (rng w) (us (S k)) (calls w ++ map (rowarr X) (seq 0 (S k))) (files w) /\
        (forall i, (i < k)%nat -> exists v, f (rowarr X i) (us i) = (Ok v, us (S i)) /\ size v = m) /\
        (f (rowarr X k) (us k) = (Err e, us (S k)) \/
         exists v, f (rowarr X k) (us k) = (Ok v, us (S k)) /\ size v <> m /\ e = ValueError))).
  Proof.
    intros X M m w HX.
    destruct (mmap_trace (G:=G) f (row2 X) (reshape [1%nat; m]) (zeros2 1 m) M 0 w) as (us & H0 & [(l & w' & Hm & (P1 & P2 & P3))|(k & e & w' & Hm & (P1 & P2 & P3 & P4))]).
    - exists us. split; auto. left. exists (mk2 M m (fun i j => (nth i l (zeros2 1 m)).[0%nat, j])), w'.
      split; [|split; [reflexivity|split]].
      + unfold simgrad_run. rewrite (process_inputs_eq _ X M m HX). unfold mbind at 1, mlift at 1.
        unfold mbind at 1. rewrite Hm. reflexivity.
      + exact P1.
      + intros i Hi. destruct (P3 i Hi) as (v & Q1 & Q2). exists v. split; [exact Q1|].
        destruct (reshape_inv _ _ _ _ Q2) as [Q3 _]. simpl in Q3. assert (Hsz : size v = m) by lia. split; auto.
        intros j Hj. rewrite at_mk2. destruct (reshape_row _ v) as (Y & R1 & R2 & R3).
        rewrite Hsz in R1, R3. rewrite R1 in Q2. injection Q2 as Q2. rewrite <- Q2. now apply R3.
    - exists us. split; auto. right. exists k, e, w'. split; auto. split; [|split; [exact P2|split]].
      + unfold simgrad_run. rewrite (process_inputs_eq _ X M m HX). unfold mbind at 1, mlift at 1.
        unfold mbind at 1. rewrite Hm. reflexivity.
      + intros i Hi. destruct (P3 i Hi) as (v & b & Q1 & Q2). exists v. split; [exact Q1|].
        destruct (reshape_inv _ _ _ _ Q2) as [Q3 _]. simpl in Q3. lia.
      + destruct P4 as [P4|(v & Q1 & Q2)]; [left; exact P4|]. right. exists v. split; [exact Q1|].
        destruct (Nat.eq_dec (size v) m) as [E|E].
        * destruct (reshape_row _ v) as (Y & R1 & _). rewrite E in R1. rewrite R1 in Q2. discriminate.
        * split; auto. rewrite reshape_err in Q2 by (simpl; lia). now inversion Q2.
  Qed.

  Lemma simgrad_run_bad : forall (X : nd R) (w : W), rank X <> 2%nat -> simgrad_run f X w = (Err ValueError, w).
  Proof. intros X w H. unfold simgrad_run, mbind, mlift. rewrite process_inputs_err by auto. reflexivity. Qed.

  (** A function without state and without failures: the whole run. *)
  Lemma sim_run_pure : forall (X : nd R) M m (w : W) (g : nd R -> R), shape X = [M; m] ->
    (forall x u, f x u = (Ok (ND [] (fun _ => g x)), u)) ->
    exists F w', sim_run f X w = (Ok F, w') /\ shape F = [M; 1%nat] /\
      (forall i, (i < M)%nat -> F.[i, 0%nat] = g (rowarr X i)) /\
      w' = World (rng w) (usr w) (calls w ++ map (rowarr X) (seq 0 M)) (files w).
  Proof.
    intros X M m w g HX Hf.
    destruct (sim_run_trace X M m w HX) as (us & H0 & [(F & w' & H1 & H2 & H3 & H4)|(k & e & w' & _ & _ & _ & _ & [H4|(v & H4 & H5 & _)])]).
    - exists F, w'. repeat split; auto.
      + intros i Hi. destruct (H4 i Hi) as (v & Q1 & Q2 & Q3). rewrite Hf in Q1. inversion Q1; subst. exact Q3.
      + rewrite H3. f_equal.
        assert (E : forall i, (i <= M)%nat -> us i = usr w).
        { induction i as [|i IH]; intros Hi; auto. destruct (H4 i ltac:(lia)) as (v & Q1 & _).
          rewrite Hf in Q1. inversion Q1. rewrite <- IH by lia. auto. }
        apply E; lia.
    - rewrite Hf in H4; discriminate.
    - rewrite Hf in H4. inversion H4; subst. now contradiction H5.
  Qed.
End Run.
