(** Final theorems for the exceptions of hit and run: C105 *)
From Coq Require Import String Reals Lra Lia List Arith ZArith Bool.
From Verif Require Import Prelude Py NumArr LinAlg Toy M_Misc M_RespSurf M_Gradients M_Subspaces M_QP M_Domains P_QP P_Misc P_Domains P_DomSample P_DomWitness Properties_QP Properties_Domains Properties_DomSample P_Notebooks Properties_Samplers Properties_Tests.
Import ListNotations.
Open Scope R_scope.

Section Outcome.
  Context {G : gen} {U L : Type}.
  Notation W := (world G U L).
  Variables (W2 : nd R) (m k : nat) (s : nat -> R).
  Notation slack := (slack W2 m k s).
  Notation seen := (seen W2 m k s).
  Notation blocked := (blocked W2 m k s).
  Notation chord_step := (chord_step W2 m k s).

  (** the rate at which face r recedes when the point z moves along d *)
  Definition rate (d : nat -> R) (r : nat) : R := (if Nat.ltb r m then 1 else -1) * sumf k (fun j => W2.[if Nat.ltb r m then r else (r - m)%nat, j] * d j).
  (** faces seen from z that lie ahead, behind, and along d *)
  Definition ahead (z : nd R) (d : nat -> R) : Prop := exists r, seen z r /\ rate d r < 0.
  Definition behind (z : nd R) (d : nat -> R) : Prop := exists r, seen z r /\ 0 < rate d r.
  Definition beside (z : nd R) (d : nat -> R) : Prop := exists r, seen z r /\ rate d r = 0.
  (** the exception of a step from z along d *)
  Definition stumbles (z : nd R) (d : nat -> R) (e : exn) : Prop :=
    (e = ValueError /\ (~ behind z d \/ (~ ahead z d /\ ~ beside z d))) \/ (e = OverflowError /\ beside z d /\ behind z d).
  Definition passes (z : nd R) (d : nat -> R) : Prop := ahead z d /\ behind z d /\ ~ beside z d.

  (** the first point and direction at which a walk of so many points fails *)
  Inductive hr_raise : gst G -> nd R -> nat -> exn -> Prop :=
  | raise_now : forall st z c n e, (c < 49)%nat -> (forall c', (c' < c)%nat -> blocked z (dir_at k st c')) -> ~ blocked z (dir_at k st c) ->
      stumbles z (dir_at k st c) e -> hr_raise st z (S n) e
  | raise_later : forall st z c z' n e, (c < 49)%nat -> (forall c', (c' < c)%nat -> blocked z (dir_at k st c')) -> ~ blocked z (dir_at k st c) ->
      chord_step z (dir_at k st c) (unif_at (normal_state ((c + 1) * k) st) 0) z' ->
      hr_raise (unif_state 1 (normal_state ((c + 1) * k) st)) z' n e -> hr_raise st z (S n) e.

  Lemma slack_along : forall z d t r, slack (along z d t) r = slack (fun j => z.[j, 0%nat]) r + t * rate d r.
  Proof.
    intros z d t r. unfold P_DomSample.slack, rate. assert (Q : forall i, sumf k (fun j => W2.[i, j] * along z d t j) = sumf k (fun j => W2.[i, j] * z.[j, 0%nat]) + t * sumf k (fun j => W2.[i, j] * d j)).
    { intros i. rewrite <- sumf_scal_l, <- sumf_plus. apply sumf_ext. intros j Hj. unfold along. ring. }
    destruct (Nat.ltb r m); rewrite Q; ring.
  Qed.

  (** the outcome of one step *)
  Lemma step_outcome : forall A b z0 d (w : W) (dv : nat -> R), pair_of W2 m k s A b -> shape z0 = [k; 1%nat] -> shape d = [k; 1%nat] -> (forall j, (j < k)%nat -> d.[j, 0%nat] = dv j) ->
    match hr_step A b z0 d w with (Ok z1, w') => passes z0 dv | (Err e, w') => stumbles z0 dv e end.
  Proof.
    intros A b z0 d w dv (SA & Sb & Vp) Sz Sd Vd. assert (SP := sqrt_eps_pos).
    unfold hr_step. unfold mbind, mlift. rewrite (npdot2 A z0 (2 * m) k 1 SA Sz).
    destruct (bcast2_same _ _ _ Rminus b (mk2 (2 * m) 1 (fun i j => sumf k (fun l => A.[i, l] * z0.[l, j]))) (2 * m) 1 Sb eq_refl) as (f & Ef & Sf & Vf). rewrite Ef, (npdot2 A d (2 * m) k 1 SA Sd).
    set (g := mk2 (2 * m) 1 (fun i j => sumf k (fun l => A.[i, l] * d.[l, j]))).
    assert (NF : nrows f = (2 * m)%nat) by exact (nrows_shape2 _ f _ _ Sf).
    assert (FV : forall r, (r < 2 * m)%nat -> f.[r, 0%nat] = - slack (fun j => z0.[j, 0%nat]) r). { intros r Hr. rewrite <- Vp by auto. rewrite Vf by lia. rewrite at_mk2. ring. }
    assert (GV : forall r, (r < 2 * m)%nat -> g.[r, 0%nat] = rate dv r).
    { intros r Hr. assert (Q := slack_along z0 dv 1 r). rewrite <- !Vp in Q by auto. unfold g. rewrite at_mk2.
      rewrite (sumf_ext k (fun j => A.[r, j] * along z0 dv 1 j) (fun j => A.[r, j] * z0.[j, 0%nat] + A.[r, j] * d.[j, 0%nat])) in Q by (intros j Hj; unfold along; rewrite Vd by auto; ring).
      rewrite sumf_plus in Q. lra. }
    clearbody g.
    assert (SE : forall r, seen z0 r <-> (r < 2 * m)%nat /\ f.[r, 0%nat] < - sqrt_eps). { intros r. unfold Properties_Samplers.seen. fold sqrt_eps. split; intros [Hr K]; split; auto; rewrite FV in * by auto; lra. }
    (* the lists *)
    assert (LE : ratios f g (fun g => Rleb g 0) = [] <-> ~ ahead z0 dv /\ ~ beside z0 dv).
    { split.
      - intros E. split; intros (r & Sr & Hr); assert (Q := proj1 (SE r) Sr); destruct Q as (Q1 & Q2); assert (K := ratios_in f g (fun g => Rleb g 0) r (2 * m) NF Q1 ltac:(apply Rleb_spec; rewrite GV by auto; lra) Q2); rewrite E in K; destruct K.
      - intros (NA & NB). destruct (ratios f g (fun g => Rleb g 0)) as [|x l] eqn:E; auto. exfalso. assert (K : In x (ratios f g (fun g => Rleb g 0))) by (rewrite E; now left). apply ratios_inv in K.
        destruct K as (r & Hr & _ & Hg & Hf). rewrite NF in Hr. apply Rleb_spec in Hg. rewrite GV in Hg by auto. assert (Sr : seen z0 r) by (apply SE; auto).
        destruct (Req_dec (rate dv r) 0); [apply NB; exists r; auto|apply NA; exists r; split; auto; lra]. }
    assert (GE : ratios f g (fun g => Rltb 0 g) = [] <-> ~ behind z0 dv).
    { split.
      - intros E (r & Sr & Hr). assert (Q := proj1 (SE r) Sr). destruct Q as (Q1 & Q2). assert (K := ratios_in f g (fun g => Rltb 0 g) r (2 * m) NF Q1 ltac:(apply Rltb_spec; rewrite GV by auto; lra) Q2). rewrite E in K. destruct K.
      - intros NB. destruct (ratios f g (fun g => Rltb 0 g)) as [|x l] eqn:E; auto. exfalso. assert (K : In x (ratios f g (fun g => Rltb 0 g))) by (rewrite E; now left). apply ratios_inv in K.
        destruct K as (r & Hr & _ & Hg & Hf). rewrite NF in Hr. apply Rltb_spec in Hg. rewrite GV in Hg by auto. apply NB. exists r. split; auto. apply SE. auto. }
    (* kinds of quotients *)
    assert (KL : forall x, In x (ratios f g (fun g => Rleb g 0)) -> x = NInf \/ exists r, x = Fin r).
    { intros x Hx. apply ratios_inv in Hx. destruct Hx as (q & _ & -> & _ & Hf). cbn [xdiv]. destruct (Req_EM_T _ 0); [left|right; eauto]. unfold xsgninf. destruct (Rlt_dec 0 _); [lra|]. destruct (Rlt_dec _ 0); [reflexivity|lra]. }
    assert (NI : beside z0 dv <-> In NInf (ratios f g (fun g => Rleb g 0))).
    { split.
      - intros (r & Sr & Hr). assert (Q := proj1 (SE r) Sr). destruct Q as (Q1 & Q2). assert (K := ratios_in f g (fun g => Rleb g 0) r (2 * m) NF Q1 ltac:(apply Rleb_spec; rewrite GV by auto; lra) Q2).
        rewrite (GV r Q1), Hr in K. cbn [xdiv] in K. destruct (Req_EM_T 0 0) as [_|n]; [|now contradiction n]. unfold xsgninf in K. destruct (Rlt_dec 0 _); [lra|]. destruct (Rlt_dec _ 0); [exact K|lra].
      - intros K. apply ratios_inv in K. destruct K as (r & Hr & E & _ & Hf). rewrite NF in Hr. exists r. split; [apply SE; auto|]. rewrite <- GV by auto. cbn [xdiv] in E. destruct (Req_EM_T (g.[r, 0%nat]) 0); [auto|discriminate]. }
    destruct (ratios f g (fun g => Rleb g 0)) as [|a l] eqn:E1.
    - cbn [np_amin]. left. split; auto. right. now apply LE.
    - cbn [np_amin]. assert (AB : ahead z0 dv \/ beside z0 dv). { apply Classical_Prop.NNPP. intros N. assert (Q : a :: l = []) by (apply LE; tauto). discriminate. }
      destruct (ratios f g (fun g => Rltb 0 g)) as [|c l'] eqn:E2; [cbn [np_amax]; left; split; auto; left; now apply GE|].
      assert (BH : behind z0 dv). { apply Classical_Prop.NNPP. intros N. apply GE in N. discriminate. }
      cbn [np_amax].
      assert (FB : exists lo, fold_left xmax l' c = Fin lo).
      { assert (K := fold_pick xmax xmax_pick l' c). rewrite <- E2 in K. apply ratios_inv in K. destruct K as (q & Hq & -> & Hg & _). apply Rltb_spec in Hg. rewrite xdiv_fin by lra. eauto. }
      destruct FB as (lo & ->). destruct (fold_left xmin l a) as [hi| | |] eqn:EM.
      + cbn [uniform_x]. unfold draw_uniform. destruct (g_unif G (rng w)) as [u st]. destruct (bcast2_same _ _ _ Rplus z0 (amap (Rmult (lo + (hi - lo) * u)) d) k 1 Sz Sd) as (t & Et & _). rewrite Et.
        assert (NB : ~ beside z0 dv). { intros Q. apply NI in Q. destruct (fold_xmin l a hi EM KL NInf Q) as (x & Ex & _). discriminate. }
        split; [tauto|split; auto].
      + exfalso. assert (K := fold_pick xmin xmin_pick l a). rewrite EM in K. destruct (KL _ K) as [Q|(q & Q)]; discriminate.
      + cbn [uniform_x]. right. split; auto. split; auto. apply NI. assert (K := fold_pick xmin xmin_pick l a). now rewrite EM in K.
      + exfalso. assert (K := fold_pick xmin xmin_pick l a). rewrite EM in K. destruct (KL _ K) as [Q|(q & Q)]; discriminate.
  Qed.

  Lemma stumbles_not_passes : forall z d e, stumbles z d e -> ~ passes z d.
  Proof. intros z d e [(_ & [H|(H & _)])|(_ & H & _)] (P1 & P2 & P3); contradiction. Qed.

  Lemma walk_raise : forall A b, pair_of W2 m k s A b -> forall rows z0 (w w' : W) e, shape z0 = [k; 1%nat] -> hr_walk A b z0 k rows w = (Err e, w') -> hr_raise (rng w) z0 rows e.
  Proof.
    intros A b HP. induction rows as [|rows IH]; intros z0 w w' e Sz H; cbn [hr_walk] in H; [discriminate|].
    destruct (pick_dir_total G U L A b z0 (2 * m) k (proj1 HP) (proj1 (proj2 HP)) Sz 49 w) as (od & w1 & E). assert (K := pick_dir_spec W2 m k s A b z0 HP Sz 49 w w1 od E). rewrite (nb _ _ w _ _ E) in H. destruct od as [d|]; [|discriminate].
    destruct K as (Sd & c & Hc & K1 & K2 & K3 & ->). set (w1 := set_rng w _) in *. assert (SO := step_outcome A b z0 d w1 _ HP Sz Sd K3). unfold mbind in H. destruct (hr_step A b z0 d w1) as [[z1|ex] w2] eqn:ES.
    - destruct (hr_step_chord W2 m k s A b z0 d w1 w2 z1 _ HP Sz Sd K3 ES) as (CS & ->). assert (S1 : shape z1 = [k; 1%nat]) by (destruct CS as (_ & a & b' & _ & _ & S1 & _); exact S1).
      destruct (hr_walk A b z1 k rows _) as [[l|ex] w3] eqn:EW; [discriminate|]. injection H as -> _. apply (raise_later (rng w) z0 c z1 rows e); auto. exact (IH z1 _ w3 e S1 EW).
    - injection H as -> _. apply (raise_now (rng w) z0 c rows e); auto.
  Qed.

  (** ** a walk that returns never meets a failing step *)
  Definition agree (z z' : nd R) : Prop := forall j, (j < k)%nat -> z.[j, 0%nat] = z'.[j, 0%nat].
  Lemma slack_agree : forall z z' r, agree z z' -> slack (fun j => z.[j, 0%nat]) r = slack (fun j => z'.[j, 0%nat]) r.
  Proof.
    intros z z' r A. unfold P_DomSample.slack. assert (Q : forall i, sumf k (fun j => W2.[i, j] * z.[j, 0%nat]) = sumf k (fun j => W2.[i, j] * z'.[j, 0%nat])) by (intros i; apply sumf_ext; intros j Hj; now rewrite A).
    destruct (Nat.ltb r m); now rewrite Q.
  Qed.
  Lemma seen_agree : forall z z' r, agree z z' -> seen z r <-> seen z' r.
  Proof. intros z z' r A. unfold Properties_Samplers.seen. now rewrite (slack_agree z z' r A). Qed.
  Lemma blocked_agree : forall z z' d, agree z z' -> blocked z d <-> blocked z' d.
  Proof. intros z z' d A. unfold Properties_Samplers.blocked. split; intros (r & Hr & H); exists r; split; auto; rewrite slack_along in *; [rewrite <- (slack_agree z z' r A)|rewrite (slack_agree z z' r A)]; exact H. Qed.
  Lemma passes_agree : forall z z' d, agree z z' -> passes z d -> passes z' d.
  Proof.
    intros z z' d A ((r1 & S1 & R1) & (r2 & S2 & R2) & N). split; [exists r1; split; auto; now apply (seen_agree z z' r1 A)|]. split; [exists r2; split; auto; now apply (seen_agree z z' r2 A)|].
    intros (r & Sr & R). apply N. exists r. split; auto. now apply (seen_agree z z' r A).
  Qed.
  Lemma chord_passes : forall z d u z', chord_step z d u z' -> passes z d.
  Proof.
    intros z d u z' (NP & a & b & AB & CH & _).
    assert (NB : ~ beside z d). { intros (r & Sr & R). apply (NP r Sr). rewrite slack_along, R. ring. }
    split; [|split; auto].
    - apply Classical_Prop.NNPP. intros N. assert (Q : a <= b + 1 <= b); [|lra]. apply CH. intros r Sr. rewrite slack_along. assert (R0 : 0 <= rate d r) by (destruct (Rlt_le_dec (rate d r) 0); auto; exfalso; apply N; exists r; auto).
      assert (K := proj2 (CH b) ltac:(lra) r Sr). rewrite slack_along in K. nra.
    - apply Classical_Prop.NNPP. intros N. assert (Q : a <= a - 1 <= b); [|lra]. apply CH. intros r Sr. rewrite slack_along. assert (R0 : rate d r <= 0) by (destruct (Rlt_le_dec 0 (rate d r)); auto; exfalso; apply N; exists r; auto).
      assert (K := proj2 (CH a) ltac:(lra) r Sr). rewrite slack_along in K. nra.
  Qed.
  Lemma chord_unique : forall z1 z2 d u z1' z2', agree z1 z2 -> chord_step z1 d u z1' -> chord_step z2 d u z2' -> agree z1' z2'.
  Proof.
    intros z1 z2 d u z1' z2' A (_ & a & b & AB & CH & _ & V) (_ & a2 & b2 & AB2 & CH2 & _ & V2) j Hj. rewrite V, V2 by auto.
    assert (EQ : forall t, a <= t <= b <-> a2 <= t <= b2).
    { intros t. rewrite <- CH, <- CH2. split; intros H r Sr; (assert (Q := H r ltac:(now apply (seen_agree z1 z2 r A)))); rewrite slack_along in *; [rewrite <- (slack_agree z1 z2 r A)|rewrite (slack_agree z1 z2 r A)]; exact Q. }
    assert (E1 := proj1 (EQ a) ltac:(lra)). assert (E2 := proj1 (EQ b) ltac:(lra)). assert (E3 := proj2 (EQ a2) ltac:(lra)). assert (E4 := proj2 (EQ b2) ltac:(lra)).
    assert (a = a2) by lra. assert (b = b2) by lra. subst a2 b2. unfold along. now rewrite (A j Hj).
  Qed.
  Lemma path_no_raise : forall st z l st', hr_path W2 m k s st z l st' -> forall z2 e, agree z z2 -> ~ hr_raise st z2 (List.length l) e.
  Proof.
    intros st z l st' P. induction P as [st z|st z n K|st z c z' l st' Hc K1 K2 CS P IH]; intros z2 e A H.
    - inversion H.
    - inversion H as [st0 z0 c0 n0 e0 Hc0 B0 N0 S0|st0 z0 c0 z0' n0 e0 Hc0 B0 N0 C0 R0]; subst; apply N0, (blocked_agree z z2 _ A), K, Hc0.
    - assert (SAME : forall c0, (c0 < 49)%nat -> (forall c', (c' < c0)%nat -> blocked z2 (dir_at k st c')) -> ~ blocked z2 (dir_at k st c0) -> c0 = c).
      { intros c0 Hc0 B0 N0. destruct (lt_eq_lt_dec c0 c) as [[Q|Q]|Q]; auto; exfalso; [apply N0, (blocked_agree z z2 _ A), K1, Q|apply K2, (blocked_agree z z2 _ A), B0, Q]. }
      inversion H as [st0 z0 c0 n0 e0 Hc0 B0 N0 S0|st0 z0 c0 z0' n0 e0 Hc0 B0 N0 C0 R0]; subst.
      + assert (c0 = c) by (apply SAME; auto). subst c0. apply (stumbles_not_passes _ _ _ S0). apply (passes_agree z z2 _ A). now apply (chord_passes _ _ _ _ CS).
      + assert (c0 = c) by (apply SAME; auto). subst c0. apply (IH z0' e); [|exact R0]. apply (chord_unique _ _ _ _ _ _ A CS C0).
  Qed.
  Lemma stumbles_agree : forall z z' d e, agree z z' -> stumbles z d e -> stumbles z' d e.
  Proof.
    intros z z' d e A. assert (T : forall (P : R -> Prop), (exists r, seen z r /\ P (rate d r)) <-> (exists r, seen z' r /\ P (rate d r))) by (intros P; split; intros (r & Sr & R); exists r; split; auto; now apply (seen_agree z z' r A)).
    assert (T1 := T (fun x => x < 0)). assert (T2 := T (fun x => 0 < x)). assert (T3 := T (fun x => x = 0)). cbn in T1, T2, T3. unfold stumbles, ahead, behind, beside. rewrite T1, T2, T3. auto.
  Qed.
  Lemma stumbles_unique : forall z d e e', stumbles z d e -> stumbles z d e' -> e = e'.
  Proof. intros z d e e' [(-> & H)|(-> & H)] [(-> & H')|(-> & H')]; auto; exfalso; tauto. Qed.
  Lemma raise_unique : forall st z n e, hr_raise st z n e -> forall z2 e2, agree z z2 -> hr_raise st z2 n e2 -> e = e2.
  Proof.
    intros st z n e H. assert (SAME : forall (st : gst G) z z2 c0 c, agree z z2 -> (forall c', (c' < c)%nat -> blocked z (dir_at k st c')) -> ~ blocked z (dir_at k st c) -> (forall c', (c' < c0)%nat -> blocked z2 (dir_at k st c')) -> ~ blocked z2 (dir_at k st c0) -> c0 = c).
    { clear. intros st z z2 c0 c A K1 K2 B0 N0. destruct (lt_eq_lt_dec c0 c) as [[Q|Q]|Q]; auto; exfalso; [apply N0, (blocked_agree z z2 _ A), K1, Q|apply K2, (blocked_agree z z2 _ A), B0, Q]. }
    induction H as [st z c n e Hc K1 K2 S|st z c z' n e Hc K1 K2 CS R IH]; intros z2 e2 A H2.
    - inversion H2 as [st0 z0 c0 n0 e0 Hc0 B0 N0 S0|st0 z0 c0 z0' n0 e0 Hc0 B0 N0 C0 R0]; subst; assert (c0 = c) by (apply (SAME st z z2); auto); subst c0.
      + apply (stumbles_unique z2 _ _ _ (stumbles_agree z z2 _ _ A S) S0).
      + exfalso. apply (stumbles_not_passes _ _ _ (stumbles_agree z z2 _ _ A S)). now apply (chord_passes _ _ _ _ C0).
    - inversion H2 as [st0 z0 c0 n0 e0 Hc0 B0 N0 S0|st0 z0 c0 z0' n0 e0 Hc0 B0 N0 C0 R0]; subst; assert (c0 = c) by (apply (SAME st z z2); auto); subst c0.
      + exfalso. apply (stumbles_not_passes _ _ _ S0). apply (passes_agree z z2 _ A). now apply (chord_passes _ _ _ _ CS).
      + apply (IH z0' e2); [|exact R0]. apply (chord_unique _ _ _ _ _ _ A CS C0).
  Qed.
End Outcome.

(** When hit and run raises: exactly when the walk from the centre reaches a point from
    which the next direction taken has, among the faces further than sqrt(2^-52), none
    behind it (ValueError), none ahead of or beside it (ValueError), or one beside it
    (OverflowError). *)
Theorem C105_raises_iff : forall (G : gen) (U L : Type) (B : backend) sb m n Nn Wm W1 W2 y (w : world G U L) e,
  frame sb m n Wm W1 W2 -> (n < m)%nat -> shape y = [n] -> has_gurobi B = false -> linprog_ok (linprog B) -> linprog_total (linprog B) -> gurobi_ok (gurobi B) ->
  (exists z, inpoly W2 m (m - n) (shift W1 y n) z) ->
  exists z0, chebyshev_start B y W1 W2 w = (Ok z0, w) /\
    (fst (hit_and_run_z B (Z.of_nat Nn) y W1 W2 w) = Err e <-> hr_raise W2 m (m - n) (shift W1 y n) (rng w) z0 Nn e).
Proof.
  intros G U L B sb m n Nn Wm W1 W2 y w e F Hn Sy HG HL HT HO HI. assert (H1 := fr_s1 _ _ _ _ _ _ F). assert (H2 := fr_s2 _ _ _ _ _ _ F). set (k := (m - n)%nat) in *.
  assert (NZ : exists i j, (i < m)%nat /\ (j < k)%nat /\ W2.[i, j] <> 0).
  { destruct (Classical_Prop.classic (exists i, (i < m)%nat /\ W2.[i, 0%nat] <> 0)) as [(i & Hi & NZ)|NZ]; [exists i, 0%nat; split; auto; split; [unfold k; lia|exact NZ]|exfalso].
    assert (O := frame_ortho _ _ _ _ _ _ F n n ltac:(lia) ltac:(lia)). unfold kron_delta in O. rewrite Nat.eqb_refl in O. rewrite (sumf_ext m _ (fun _ => 0)) in O; [rewrite sumf_0 in O; lra|].
    intros i Hi. assert (Q := fr_e2 _ _ _ _ _ _ F i 0%nat Hi ltac:(lia)). rewrite Nat.add_0_r in Q. rewrite <- Q. destruct (Req_dec (W2.[i, 0%nat]) 0) as [-> | Q2]; [ring|]. exfalso. apply NZ. eauto. }
  destruct (C28_start_found G U L B m n y W1 W2 w ltac:(lia) H1 H2 Sy HG HL HT HI NZ) as (z0 & EC). exists z0. split; [exact EC|].
  destruct (C28_start_is_chebyshev_centre G U L B m n y W1 W2 w w z0 ltac:(lia) H1 H2 Sy HL HO HI EC) as (_ & Sz & _). fold k in Sz.
  destruct (shift_of_ok W1 y m n H1 Sy) as (sv & Es & Ss & Vs). destruct (polytope_pair W2 sv m k H2 Ss) as (A & b & Ep & SA & Sb & Vp).
  assert (PO : pair_of W2 m k (shift W1 y n) A b).
  { split; [exact SA|]. split; [exact Sb|]. intros z q Hq. rewrite Vp by auto. unfold slack, shift. destruct (Nat.ltb_spec q m); rewrite Vs by lia; reflexivity. }
  assert (RUN : hit_and_run_z B (Z.of_nat Nn) y W1 W2 w = mbind (hr_walk A b z0 k Nn) (fun l => mret (of_rows k (map (fun z => mk1 k (fun j => z.[j, 0%nat])) l))) w).
  { unfold hit_and_run_z. unfold mbind at 1, mlift. unfold shape2. rewrite H1. cbv zeta. fold k. rewrite (nb _ _ w _ _ EC). unfold mbind at 1. rewrite Es. unfold mbind at 1. rewrite Ep. unfold mbind at 1. unfold dimZ. destruct (Z.ltb_spec (Z.of_nat Nn) 0); [lia|]. now rewrite Nat2Z.id. }
  rewrite RUN. unfold mbind. destruct (hr_walk A b z0 k Nn w) as [[l|ex] w'] eqn:EW.
  - cbn. split; [discriminate|]. intros R. exfalso. destruct (hr_walk_path W2 m k _ A b PO Nn z0 w w' l Sz EW) as (LL & _ & LP & _). rewrite <- LL in R. exact (path_no_raise W2 m k _ _ _ _ _ LP z0 e ltac:(intros j Hj; reflexivity) R).
  - cbn. assert (R := walk_raise W2 m k _ A b PO Nn z0 w w' ex Sz EW). split.
    + intros E. injection E as <-. exact R.
    + intros R2. f_equal. exact (raise_unique W2 m k _ _ _ _ _ R z0 e ltac:(intros j Hj; reflexivity) R2).
Qed.
Print Assumptions C105_raises_iff.

(** The first point: when every face is seen from the centre (there is an inscribed
    ball whose radius times the norm of each row of W2 exceeds sqrt(2^-52), rows of
    zeros being judged by W1 y alone), with d the first direction that is not blocked
    there and v = W2 d.  No entry of v is zero: one point is returned.  All are zero:
    ValueError.  Otherwise: OverflowError. *)
Theorem C105_first_point : forall (G : gen) (U L : Type) (B : backend) sb m n Wm W1 W2 y (w : world G U L) zc rho,
  frame sb m n Wm W1 W2 -> (n < m)%nat -> shape y = [n] -> has_gurobi B = false -> linprog_ok (linprog B) -> linprog_total (linprog B) -> gurobi_ok (gurobi B) ->
  let k := (m - n)%nat in let s := shift W1 y n in
  0 < rho -> ball_in W2 m k s zc rho ->
  (forall i, (i < m)%nat -> sqrt (/ 2 ^ 52) < rho * sqrt (sumf k (fun j => W2.[i, j] * W2.[i, j])) \/ ((forall j, (j < k)%nat -> W2.[i, j] = 0) /\ -1 + sqrt (/ 2 ^ 52) < s i < 1 - sqrt (/ 2 ^ 52))) ->
  exists z0, chebyshev_start B y W1 W2 w = (Ok z0, w) /\
    forall c, (c < 49)%nat -> (forall c', (c' < c)%nat -> blocked W2 m k s z0 (dir_at k (rng w) c')) -> ~ blocked W2 m k s z0 (dir_at k (rng w) c) ->
    let v := fun i => sumf k (fun j => W2.[i, j] * dir_at k (rng w) c j) in
    ((forall i, (i < m)%nat -> v i <> 0) -> exists Z w', hit_and_run_z B 1 y W1 W2 w = (Ok Z, w')) /\
    ((forall i, (i < m)%nat -> v i = 0) -> forall N, (0 < N)%nat -> fst (hit_and_run_z B (Z.of_nat N) y W1 W2 w) = Err ValueError) /\
    ((exists i, (i < m)%nat /\ v i = 0) -> (exists i, (i < m)%nat /\ v i <> 0) -> forall N, (0 < N)%nat -> fst (hit_and_run_z B (Z.of_nat N) y W1 W2 w) = Err OverflowError).
Proof.
  intros G U L B sb m n Wm W1 W2 y w zc rho F Hn Sy HG HL HT HO k s R0 BI WD. assert (H1 := fr_s1 _ _ _ _ _ _ F). assert (H2 := fr_s2 _ _ _ _ _ _ F).
  assert (HI : exists z, inpoly W2 m (m - n) (shift W1 y n) z) by (exists zc; fold k; fold s; apply (inpoly_ext W2 m k s (fun j => zc j + 0)); [intros j Hj; lra|]; apply (BI (fun _ => 0)); unfold dist2le; rewrite (sumf_ext k _ (fun _ => 0)) by (intros; ring); rewrite sumf_0; nra).
  destruct (C105_raises_iff G U L B sb m n 0 Wm W1 W2 y w ValueError F Hn Sy HG HL HT HO HI) as (z0 & EC & _). exists z0. split; [exact EC|].
  destruct (C28_start_is_chebyshev_centre G U L B m n y W1 W2 w w z0 ltac:(lia) H1 H2 Sy HL HO HI EC) as (_ & Sz & _ & r & Hr0 & _ & MX & SL). fold k s in Sz, SL, MX.
  assert (RR := MX zc rho ltac:(lra) BI).
  assert (SE : forall q, (q < 2 * m)%nat -> seen W2 m k s z0 q).
  { intros q Hq. split; auto. set (i := if Nat.ltb q m then q else (q - m)%nat). assert (Hi : (i < m)%nat) by (unfold i; destruct (Nat.ltb_spec q m); lia). assert (Q := SL q Hq). fold i in Q. destruct (WD i Hi) as [K|(Z0 & K)].
    - assert (0 <= sqrt (sumf k (fun j => W2.[i, j] * W2.[i, j]))) by apply sqrt_pos. nra.
    - unfold slack. unfold i in Z0, K. assert (SZ : forall x, sumf k (fun j => W2.[if Nat.ltb q m then q else (q - m)%nat, j] * x j) = 0) by (intros x; rewrite (sumf_ext k _ (fun _ => 0)) by (intros j Hj; rewrite Z0 by auto; ring); apply sumf_0).
      destruct (Nat.ltb q m); rewrite SZ; lra. }
  intros c Hc KB KN v. set (d := dir_at k (rng w) c) in *.
  assert (RT : forall i, (i < m)%nat -> rate W2 m k d i = v i /\ rate W2 m k d (m + i) = - v i).
  { intros i Hi. unfold rate, v. destruct (Nat.ltb_spec i m); [|lia]. destruct (Nat.ltb_spec (m + i) m); [lia|]. replace (m + i - m)%nat with i by lia. fold d. split; ring. }
  assert (RUN : forall N e, fst (hit_and_run_z B (Z.of_nat N) y W1 W2 w) = Err e <-> hr_raise W2 m k s (rng w) z0 N e).
  { intros N e. destruct (C105_raises_iff G U L B sb m n N Wm W1 W2 y w e F Hn Sy HG HL HT HO HI) as (z1 & EC1 & K). rewrite EC in EC1. injection EC1 as <-. exact K. }
  assert (AHD : forall i, (i < m)%nat -> v i <> 0 -> ahead W2 m k s z0 d /\ behind W2 m k s z0 d).
  { intros i Hi NE. destruct (RT i Hi) as (E1 & E2). destruct (Rlt_dec (v i) 0).
    - split; [exists i; split; [apply SE; lia|lra]|exists (m + i)%nat; split; [apply SE; lia|lra]].
    - split; [exists (m + i)%nat; split; [apply SE; lia|lra]|exists i; split; [apply SE; lia|lra]]. }
  assert (SIDE : forall q, (q < 2 * m)%nat -> exists i, (i < m)%nat /\ (rate W2 m k d q = v i \/ rate W2 m k d q = - v i)).
  { intros q Hq. destruct (lt_dec q m); [exists q; split; auto; left; now apply RT|]. exists (q - m)%nat. split; [lia|]. right. assert (K := proj2 (RT (q - m)%nat ltac:(lia))). now replace (m + (q - m))%nat with q in K by lia. }
  split; [|split].
  - intros NE. destruct (hit_and_run_z B 1 y W1 W2 w) as [[Z|e] w'] eqn:E; [eauto|exfalso]. assert (R : hr_raise W2 m k s (rng w) z0 1 e) by (apply RUN; change (Z.of_nat 1) with 1%Z; now rewrite E).
    assert (SAME : forall c0, (c0 < 49)%nat -> (forall c', (c' < c0)%nat -> blocked W2 m k s z0 (dir_at k (rng w) c')) -> ~ blocked W2 m k s z0 (dir_at k (rng w) c0) -> c0 = c).
    { intros c0 Hc0 B0 N0. destruct (lt_eq_lt_dec c0 c) as [[Q|Q]|Q]; auto; exfalso; [apply N0, KB, Q|apply KN, B0, Q]. }
    inversion R as [st1 z1 c0 n0 e0 Hc0 B0 N0 S0|st1 z1 c0 z0' n0 e0 Hc0 B0 N0 C0 R1]; subst; [|inversion R1].
    assert (c0 = c) by (apply SAME; auto). subst c0. fold d in S0. apply (stumbles_not_passes _ _ _ _ _ _ _ S0). destruct (AHD 0%nat ltac:(lia) (NE 0%nat ltac:(lia))) as (A1 & A2). split; [exact A1|]. split; [exact A2|].
    intros (q & Sq & Rq). destruct (SIDE q (proj1 Sq)) as (i & Hi & [K|K]); apply (NE i Hi); lra.
  - intros AZ N HN. apply RUN. destruct N as [|N]; [lia|]. apply (raise_now W2 m k s (rng w) z0 c N ValueError Hc KB KN). left. split; auto. left. intros (q & Sq & Rq). change (0 < rate W2 m k d q) in Rq. destruct (SIDE q (proj1 Sq)) as (i & Hi & [K|K]); assert (Q : v i = 0) by exact (AZ i Hi); rewrite K, Q in Rq; lra.
  - intros (i & Hi & E0) (i2 & Hi2 & NE) N HN. apply RUN. destruct N as [|N]; [lia|]. apply (raise_now W2 m k s (rng w) z0 c N OverflowError Hc KB KN). right. split; auto. fold d. split; [exists i; split; [apply SE; lia|rewrite (proj1 (RT i Hi)); auto]|]. now apply (AHD i2).
Qed.
Print Assumptions C105_first_point.

(** two rotated inputs *)
Definition J2 : nd R := mk2 2 2 (fun i j => nth j (nth i [[3/5; -(4/5)]; [4/5; 3/5]] []) 0).
Definition J21 : nd R := cols_slice J2 0 1.
Definition J22 : nd R := cols_slice J2 1 2.
Lemma frameJ : frame (Subs None (Some J2) (Some J21) (Some J22) None None) 2 1 J2 J21 J22.
Proof. split; try reflexivity; try lia. intros a b Ha Hb. destruct a as [|[|a]]; try lia; destruct b as [|[|b]]; try lia; simpl; lra. Qed.

Lemma eps_small : sqrt (/ 2 ^ 52) < 1 / 10.
Proof. replace (/ 2 ^ 52) with (/ 2 ^ 26 * / 2 ^ 26) by (field; lra). rewrite sqrt_square by lra. lra. Qed.
Lemma sqrt_row : forall a, sqrt (0 + a * a) = Rabs a.
Proof. intros a. rewrite Rplus_0_l. apply sqrt_Rsqr_abs. Qed.

Lemma case_first : forall sb Wm W1 W2 t (w := same_world (/ 2) t half01), frame sb 2 1 Wm W1 W2 -> (forall i, (i < 2)%nat -> Rabs (W2.[i, 0%nat]) <= 1 /\ (1 / 2 <= Rabs (W2.[i, 0%nat]) \/ W2.[i, 0%nat] = 0)) -> 0 <= t <= 1 ->
  let v := fun i => W2.[i, 0%nat] * t in
    ((forall i, (i < 2)%nat -> v i <> 0) -> exists Z w', hit_and_run_z backend_ref 1 (vec_of [0]) W1 W2 w = (Ok Z, w')) /\
    ((forall i, (i < 2)%nat -> v i = 0) -> forall N, (0 < N)%nat -> fst (hit_and_run_z backend_ref (Z.of_nat N) (vec_of [0]) W1 W2 w) = Err ValueError) /\
    ((exists i, (i < 2)%nat /\ v i = 0) -> (exists i, (i < 2)%nat /\ v i <> 0) -> forall N, (0 < N)%nat -> fst (hit_and_run_z backend_ref (Z.of_nat N) (vec_of [0]) W1 W2 w) = Err OverflowError).
Proof.
  intros sb Wm W1 W2 t w F HW Ht v. assert (HG : gurobi_ok (gurobi backend_ref)) by (intros P l H; discriminate).
  assert (SH : forall i, shift W1 (vec_of [0]) 1 i = 0) by (intros i; unfold shift; cbn [sumf]; change ((vec_of [0]).[0%nat]) with 0; ring).
  assert (BI : ball_in W2 2 1 (shift W1 (vec_of [0]) 1) (fun _ => 0) (1 / 2)).
  { intros u (_ & Hu) i Hi. cbn [sumf] in *. rewrite SH. destruct (HW i Hi) as (A1 & _). set (a := W2.[i, 0%nat]) in *. set (x := u 0%nat) in *.
    assert (-1 / 2 <= x <= 1 / 2) by nra. assert (-1 <= a <= 1) by (unfold Rabs in A1; destruct (Rcase_abs a); lra). nra. }
  assert (E := eps_small). assert (H1 := fr_s1 _ _ _ _ _ _ F). assert (H2 := fr_s2 _ _ _ _ _ _ F).
  assert (HI : exists z, inpoly W2 2 (2 - 1) (shift W1 (vec_of [0]) 1) z) by (exists (fun _ => 0); intros i Hi; cbn [sumf Nat.sub]; rewrite SH; lra).
  destruct (C105_first_point _ _ _ backend_ref sb 2 1 Wm W1 W2 (vec_of [0]) w (fun _ => 0) (1 / 2) F ltac:(lia) eq_refl eq_refl linprog_ref_ok linprog_ref_succeeds HG ltac:(lra) BI) as (z0 & EC & K).
  { intros i Hi. destruct (HW i Hi) as (_ & [A|A]); [left; cbn [sumf Nat.sub]; rewrite sqrt_row; lra|right]. split; [intros j Hj; replace j with 0%nat by lia; exact A|]. rewrite SH. lra. }
  destruct (C28_start_is_chebyshev_centre _ _ _ backend_ref 2 1 (vec_of [0]) W1 W2 w w z0 ltac:(lia) H1 H2 eq_refl linprog_ref_ok HG HI EC) as (_ & Sz & IP & r & Hr0 & _ & MX & SL).
  assert (RR := MX (fun _ => 0) (1 / 2) ltac:(lra) BI).
  specialize (K 0%nat ltac:(lia) ltac:(lia)). assert (NB : ~ blocked W2 2 (2 - 1) (shift W1 (vec_of [0]) 1) z0 (dir_at (2 - 1) (rng w) 0)).
  { intros (q & Hq & Q). rewrite slack_along in Q. specialize (SL q Hq). cbn [Nat.sub] in *. set (sl := slack W2 2 1 _ _ q) in *. set (i := if Nat.ltb q 2 then q else (q - 2)%nat) in *. assert (Hi : (i < 2)%nat) by (unfold i; destruct (Nat.ltb_spec q 2); lia).
    cbn [sumf] in SL. rewrite sqrt_row in SL. destruct (HW i Hi) as (A1 & A2).
    assert (RT : rate W2 2 1 (dir_at 1 (rng w) 0) q = (if Nat.ltb q 2 then 1 else -1) * (W2.[i, 0%nat] * t)) by (unfold rate; fold i; cbn [sumf]; unfold dir_at; rewrite (same_normal (/ 2) t half01); ring).
    rewrite RT in Q. set (a := W2.[i, 0%nat]) in *. assert (sg : (if Nat.ltb q 2 then 1 else -1) = 1 \/ (if Nat.ltb q 2 then 1 else -1) = -1) by (destruct (Nat.ltb q 2); auto). set (g := if Nat.ltb q 2 then 1 else -1) in *.
    destruct A2 as [A2|A2].
    - assert (1 / 4 <= sl) by nra. assert (-1 <= a <= 1) by (unfold Rabs in A1; destruct (Rcase_abs a); lra). destruct sg as [-> | ->]; nra.
    - assert (sl = 1). { unfold sl, slack. unfold i in A2. destruct (Nat.ltb q 2); cbn [sumf]; rewrite SH; unfold a, i in A2; rewrite A2; ring. } rewrite A2 in Q. destruct sg as [-> | ->]; lra. }
  specialize (K NB). cbv zeta in K. cbn [Nat.sub sumf] in K.
  assert (VE : forall i, 0 + W2.[i, 0%nat] * dir_at 1 (rng w) 0 0%nat = v i) by (intros i; unfold v, dir_at; rewrite (same_normal (/ 2) t half01); ring).
  destruct K as (K1 & K2 & K3). split; [|split].
  - intros A. apply K1. intros i Hi. rewrite VE. auto.
  - intros A. apply K2. intros i Hi. rewrite VE. auto.
  - intros (i & Hi & A) (i' & Hi' & A'). apply K3; [exists i|exists i']; rewrite VE; auto.
Qed.

(** The first input is the active variable: every direction is beside its faces.
    Rotated inputs: one point is returned, unless the direction drawn is zero. *)
Example C105_case :
  (forall N, (0 < N)%nat -> fst (hit_and_run_z backend_ref (Z.of_nat N) (vec_of [0]) I21 I22 (same_world (/ 2) 1 half01)) = Err OverflowError) /\
  (forall N, (0 < N)%nat -> fst (hit_and_run_z backend_ref (Z.of_nat N) (vec_of [0]) J21 J22 (same_world (/ 2) 0 half01)) = Err ValueError) /\
  (exists Z w', hit_and_run_z backend_ref 1 (vec_of [0]) J21 J22 (same_world (/ 2) 1 half01) = (Ok Z, w')).
Proof.
  assert (IR : forall i, (i < 2)%nat -> Rabs (I22.[i, 0%nat]) <= 1 /\ (1 / 2 <= Rabs (I22.[i, 0%nat]) \/ I22.[i, 0%nat] = 0)).
  { intros i Hi. destruct i as [|[|i]]; try lia; cbn; [rewrite Rabs_R0; split; [lra|auto]|rewrite Rabs_R1; lra]. }
  assert (J0 : J22.[0%nat, 0%nat] = -(4 / 5)) by reflexivity. assert (J1 : J22.[1%nat, 0%nat] = 3 / 5) by reflexivity.
  assert (JR : forall i, (i < 2)%nat -> Rabs (J22.[i, 0%nat]) <= 1 /\ (1 / 2 <= Rabs (J22.[i, 0%nat]) \/ J22.[i, 0%nat] = 0)).
  { intros i Hi. destruct i as [|[|i]]; try lia; [rewrite J0, Rabs_Ropp|rewrite J1]; rewrite Rabs_right by lra; lra. }
  split; [|split].
  - apply (case_first _ _ _ _ 1 frameI IR ltac:(lra)); [exists 0%nat|exists 1%nat]; cbn; split; try lia; lra.
  - apply (case_first _ _ _ _ 0 frameJ JR ltac:(lra)). intros i Hi. cbv beta. ring.
  - apply (case_first _ _ _ _ 1 frameJ JR ltac:(lra)). intros i Hi. cbv beta. destruct i as [|[|i]]; try lia; [rewrite J0|rewrite J1]; lra.
Qed.
