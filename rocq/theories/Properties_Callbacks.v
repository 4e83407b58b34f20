(** C79: the problems that minimize hands to scipy.optimize.minimize (optimizers.py 167-399) *)
From Coq Require Import String Reals Lra Lia List Arith ZArith Bool FunctionalExtensionality.
From Verif Require Import Prelude Py NumArr Toy Lsq SolveRef M_Misc M_RespSurf M_Gradients M_Subspaces M_QP M_Domains M_Designs M_ASRS M_Optimizers
  P_Misc P_QP P_Rbf P_Poly P_PolyFacts P_PolyTrain P_Zonotope P_DomSample P_Domains P_Optimizers Properties_RespSurf Properties_ASRS.
Import ListNotations.
Open Scope R_scope.

(** a problem in n variables as minimize wants it: the objective is defined at every point, jac is
    its gradient, the constraints are defined and their jac is the matrix of their derivatives,
    and the start has n entries *)
Definition well_posed (n : nat) (p : mprob) : Prop :=
  (forall y, shape y = [n] -> exists v, mp_fun p y = Ok v) /\
  match mp_jac p with
  | None => True
  | Some j => forall y, shape y = [n] -> exists g, j y = Ok g /\ shape g = [n] /\
      forall h, derivable_pt_lim (fun t => match mp_fun p (mk1 n (fun k => y.[k] + t * h k)) with Ok v => v | Err _ => 0 end) 0 (sumf n (fun k => g.[k] * h k))
  end /\
  match mp_cons p with
  | None => True
  | Some (c, jc) => exists k, forall y, shape y = [n] -> exists v J, c y = Ok v /\ shape v = [k] /\ jc y = Ok J /\ shape J = [k; n] /\
      forall i h, (i < k)%nat -> derivable_pt_lim (fun t => match c (mk1 n (fun j => y.[j] + t * h j)) with Ok v => v.[i] | Err _ => 0 end) 0 (sumf n (fun j => J.[i, j] * h j))
  end /\ size (mp_x0 p) = n.

Lemma row_reshape : forall (y : nd R) n, shape y = [n] -> exists Y, reshape [1%nat; size y] y = Ok Y /\ shape Y = [1%nat; n] /\ forall k, (k < n)%nat -> Y.[0%nat, k] = y.[k].
Proof.
  intros y n Hy. assert (S : size y = n) by (unfold size; rewrite Hy; cbn; lia). rewrite S.
  destruct (reshape_ok R [1%nat; n] y) as (Y & E & SY & V); [rewrite S; cbn; lia|]. exists Y. split; auto. split; auto. intros k Hk. rewrite V by (repeat constructor; lia). rewrite Hy. f_equal. cbn [ravel unravel prodn fold_right]. rewrite Nat.div_1_r. f_equal. lia.
Qed.
Lemma flat_reshape : forall (D : nd R) n, shape D = [1%nat; n] -> exists g, reshape [n] D = Ok g /\ shape g = [n] /\ forall k, (k < n)%nat -> g.[k] = D.[0%nat, k].
Proof.
  intros D n HD. destruct (reshape_ok R [n] D) as (g & E & Sg & V); [unfold size; rewrite HD; cbn; lia|]. exists g. split; auto. split; auto. intros k Hk. rewrite V by (repeat constructor; lia). rewrite HD. f_equal. cbn [ravel unravel prodn fold_right].
  rewrite Nat.div_1_r. replace (k * 1 + 0)%nat with k by lia. replace (n * 1)%nat with n by lia. rewrite Nat.div_small, Nat.mod_small by lia. reflexivity.
Qed.

(** avfun and avdfun: the surface's value, and the gradient of it *)
Lemma callbacks : forall s n, true_gradient (rs_predict (as_rs s)) n -> entrywise (rs_predict (as_rs s)) n ->
  forall y, shape y = [n] -> exists v g F, avfun_of s y = Ok v /\ avdfun_of s y = Ok g /\ shape g = [n] /\
   predict_av s (mk2 1 n (fun _ k => y.[k])) false = Ok (F, None) /\ v = F.[0%nat, 0%nat] /\
   forall h, derivable_pt_lim (fun t => match avfun_of s (mk1 n (fun k => y.[k] + t * h k)) with Ok v => v | Err _ => 0 end) 0 (sumf n (fun k => g.[k] * h k)).
Proof.
  intros s n TG EW y Hy. assert (S : size y = n) by (unfold size; rewrite Hy; cbn; lia).
  destruct (row_reshape y n Hy) as (Y & EY & SY & VY). destruct (TG Y 1%nat SY) as (F & D & F' & E1 & E2 & SF & SD & EF & HD).
  destruct (flat_reshape D n SD) as (g & Eg & Sg & Vg). assert (SF' : shape F' = [1%nat; 1%nat]) by (destruct EF; congruence).
  assert (AV : forall y', shape y' = [n] -> exists F1, predict_av s (mk2 1 n (fun _ k => y'.[k])) false = Ok (F1, None) /\ avfun_of s y' = Ok (F1.[0%nat, 0%nat])).
  { intros y' Hy'. destruct (row_reshape y' n Hy') as (Y' & EY' & SY' & VY').
    destruct (TG Y' 1%nat SY') as (Fa & Da & F2 & _ & Q2 & QF & _ & QE & _). destruct (TG (mk2 1 n (fun _ k => y'.[k])) 1%nat eq_refl) as (Fb & Db & F3 & _ & Q3 & _).
    assert (SR := EW Y' (mk2 1 n (fun _ k => y'.[k])) 1%nat false SY').
    assert (EQ : Y' === mk2 1 n (fun _ k => y'.[k])). { apply (eqnd2 _ 1 n); auto. intros i j Hi Hj. replace i with 0%nat by lia. rewrite VY' by auto. reflexivity. }
    specialize (SR EQ). rewrite Q2, Q3 in SR. cbn [same_result] in SR. exists F3. split; [exact Q3|].
    assert (S2 : shape F2 = [1%nat; 1%nat]) by (destruct QE; congruence).
    unfold avfun_of. rewrite EY'. cbn [rbind]. unfold predict_av. rewrite Q2. cbn [rbind]. unfold get2. rewrite S2. cbn. f_equal. apply (eqnd_at2 _ _ _ _ _ 0%nat 0%nat SR S2); lia. }
  destruct (AV y Hy) as (F1 & P1 & A1). exists (F1.[0%nat, 0%nat]), g, F1. split; [exact A1|]. split.
  { unfold avdfun_of, gradient_av. rewrite EY. cbn [rbind]. rewrite E1. cbn [rbind need]. rewrite S. exact Eg. }
  split; [exact Sg|]. split; [exact P1|]. split; [reflexivity|].
  intros h. rewrite (sumf_ext n _ (fun k => D.[0%nat, k] * h k)) by (intros k Hk; now rewrite Vg).
  eapply derivable_pt_lim_ext; [|exact (HD 0%nat h ltac:(lia))]. intros t. cbv beta.
  destruct (AV (mk1 n (fun k => y.[k] + t * h k)) eq_refl) as (F4 & P4 & A4). rewrite A4.
  assert (SR := EW (nudge Y 1 n 0 h t) (mk2 1 n (fun _ k => (mk1 n (fun k => y.[k] + t * h k)).[k])) 1%nat false eq_refl).
  assert (EQ : nudge Y 1 n 0 h t === mk2 1 n (fun _ k => (mk1 n (fun k => y.[k] + t * h k)).[k])).
  { apply (eqnd2 _ 1 n); auto. intros i j Hi Hj. replace i with 0%nat by lia. unfold nudge. rewrite !at_mk2, at_mk1. cbn [Nat.eqb]. now rewrite VY. }
  specialize (SR EQ). unfold predict_av in P4. rewrite P4 in SR. destruct (TG (nudge Y 1 n 0 h t) 1%nat eq_refl) as (Fc & Dc & F5 & _ & Q5 & S5 & _ & Q6 & _). rewrite Q5 in SR |- *. cbn [same_result] in SR. cbn [value_at].
  apply (eqnd_at2 _ _ _ 1%nat 1%nat 0%nat 0%nat SR); [destruct Q6; congruence|lia|lia].
Qed.

Theorem C79_callbacks : forall solve cholesky fminbound lstsq r r' n Y f v e M, solve_sound solve -> lstsq_contract lstsq -> (1 <= n)%nat ->
  match r with RSRbf _ _ => True | RSPoly N _ => (1 <= N)%nat | RSUser _ _ => False end -> shape Y = [M; n] -> shape f = [M; 1%nat] ->
  rs_train solve cholesky fminbound lstsq r Y f v e = Ok r' ->
  forall a y, shape y = [n] -> let s := ASRS r' a in exists val g F, avfun_of s y = Ok val /\ avdfun_of s y = Ok g /\ shape g = [n] /\
    predict_av s (mk2 1 n (fun _ k => y.[k])) false = Ok (F, None) /\ val = F.[0%nat, 0%nat] /\
    forall h, derivable_pt_lim (fun t => match avfun_of s (mk1 n (fun k => y.[k] + t * h k)) with Ok v => v | Err _ => 0 end) 0 (sumf n (fun k => g.[k] * h k)).
Proof.
  intros solve cholesky fminbound lstsq r r' n Y f v e M HS HL Hn HK HY Hf ER a y Hy.
  assert (Q : true_gradient (rs_predict r') n /\ entrywise (rs_predict r') n).
  { unfold rs_train in ER. destruct r as [N st|N st|t st]; [| |contradiction].
    - apply rbind_ok in ER. destruct ER as (q & Eq & ER). injection ER as <-.
      destruct (rbf_train_inv solve cholesky fminbound N Y f v _ M n q HS HY Hf Hn Eq) as (L & l & nu & _ & _ & _ & _ & _ & T).
      exact (rbf_surface N q n M Hn (r_shape _ _ _ _ _ _ _ _ T)).
    - apply rbind_ok in ER. destruct ER as (q & Eq & ER). injection ER as <-.
      destruct (poly_train_inv lstsq HL N Y f None M n HY Hf Hn HK I) as (L & EL & _ & Htr & _).
      exact (poly_surface N q n Hn (trained_shape N Y f None M n L q Hn EL (Htr q Eq))). }
  destruct Q as [Q1 Q2]. exact (callbacks (ASRS r' a) n Q1 Q2 y Hy).
Qed.
Print Assumptions C79_callbacks.

(** the constraint of a zonotope domain *)
Lemma hull_cons_posed : forall eqs n k, shape eqs = [k; S n] -> let c := fst (hull_cons eqs n) in let jc := snd (hull_cons eqs n) in
  forall y, shape y = [n] -> exists v J, c y = Ok v /\ shape v = [k] /\ jc y = Ok J /\ shape J = [k; n] /\
      forall i h, (i < k)%nat -> derivable_pt_lim (fun t => match c (mk1 n (fun j => y.[j] + t * h j)) with Ok v => v.[i] | Err _ => 0 end) 0 (sumf n (fun j => J.[i, j] * h j)).
Proof.
  intros eqs n k HE c jc y Hy.
  assert (SA : shape (cols_slice eqs 0 n) = [k; n]). { unfold cols_slice. rewrite shape_mk2, (nrows_shape2 _ _ _ _ HE), (ncols_shape2 _ _ _ _ HE). f_equal. f_equal. lia. }
  assert (NR : nrows eqs = k) by (exact (nrows_shape2 _ _ _ _ HE)).
  assert (CV : forall y', shape y' = [n] -> exists v, c y' = Ok v /\ shape v = [k] /\ forall i, (i < k)%nat -> v.[i] = sumf n (fun j => (cols_slice eqs 0 n).[i, j] * y'.[j]) - eqs.[i, n]).
  { intros y' Hy'. unfold c, hull_cons. cbn [fst]. rewrite (npdot21 _ y' k n SA Hy'). cbn [rbind]. rewrite NR.
    destruct (bcast1_same _ _ _ Rminus (mk1 k (fun i => sumf n (fun l => (cols_slice eqs 0 n).[i, l] * y'.[l]))) (mk1 k (fun i => eqs.[i, n])) k eq_refl eq_refl) as (Z & E & SZ & VZ).
    exists Z. split; [exact E|]. split; [exact SZ|]. intros i Hi. rewrite VZ by auto. reflexivity. }
  destruct (CV y Hy) as (v & E & Sv & Vv). exists v, (cols_slice eqs 0 n). split; [exact E|]. split; [exact Sv|]. split; [reflexivity|]. split; [exact SA|].
  intros i h Hi. set (A := cols_slice eqs 0 n) in *.
  apply derivable_pt_lim_ext with (f := fun t => (sumf n (fun j => A.[i, j] * y.[j]) - eqs.[i, n]) + t * sumf n (fun j => A.[i, j] * h j)).
  - intros t. destruct (CV (mk1 n (fun j => y.[j] + t * h j)) eq_refl) as (v2 & E2 & _ & V2). rewrite E2, V2 by auto.
    rewrite (sumf_ext n (fun j => A.[i, j] * (mk1 n (fun j => y.[j] + t * h j)).[j]) (fun j => A.[i, j] * y.[j] + t * (A.[i, j] * h j))) by (intros; rewrite at_mk1; ring). rewrite sumf_plus, sumf_scal_l. ring.
  - set (c0 := sumf n (fun j => A.[i, j] * y.[j]) - eqs.[i, n]). set (c1 := sumf n (fun j => A.[i, j] * h j)). 
    assert (Q : derivable_pt_lim (plus_fct (fun _ => c0) (mult_fct (fun t => t) (fun _ => c1))) 0 (0 + (1 * c1 + 0 * 0))).
    { apply derivable_pt_lim_plus; [apply derivable_pt_lim_const|]. apply (derivable_pt_lim_mult (fun t => t) (fun _ => c1)); [apply derivable_pt_lim_id|apply derivable_pt_lim_const]. }
    replace (0 + (1 * c1 + 0 * 0)) with c1 in Q by ring. exact Q.
Qed.

Lemma multistart_ext : forall (G : gen) (U L : Type) k (run run' : M (world G U L) mres) msg minf o w, (forall w, run w = run' w) -> multistart k run msg minf o w = multistart k run' msg minf o w.
Proof. intros G U L k run run' msg minf o w H. assert (run = run') as -> by (apply functional_extensionality; exact H). reflexivity. Qed.

Lemma normal2_shape : forall (G : gen) (U L : Type) r c (w w' : world G U L) X, normal2 r c w = (Ok X, w') -> shape X = [r; c].
Proof.
  intros G U L r c w w' X H. unfold normal2, mbind in H. destruct (repeatM (r * c) draw_normal w) as [[l|er] w1]; [|discriminate]. unfold mret in H. injection H as <- _. reflexivity.
Qed.

(** a domain as the constructors make it: no constraint, or the facets of a hull in n dimensions *)
Definition domain_cons (d : avdomain) (n : nat) : Prop := d_cons d = None \/ exists eqs k, shape eqs = [k; S n] /\ d_cons d = Some (hull_cons eqs n).

(** minimize hands scipy.optimize.minimize well-posed problems only: two versions of the routine
    that agree on those give the same run *)
Theorem C79_problems : forall (G : gen) (U : Type) B1 B2 fminbound s d m n W1 (w : world G U (nd R)),
  true_gradient (rs_predict (as_rs s)) n -> entrywise (rs_predict (as_rs s)) n ->
  s_W1 (d_subs d) = Some W1 -> shape W1 = [m; n] -> domain_cons d n ->
  (forall p, well_posed n p -> sp_minimize B1 p = sp_minimize B2 p) ->
  av_minimize B1 fminbound (avfun_of s) d (Some (avdfun_of s)) w = av_minimize B2 fminbound (avfun_of s) d (Some (avdfun_of s)) w.
Proof.
  intros G U B1 B2 fminbound s d m n W1 w TG EW HW SW HD HB.
  assert (PO : forall y0 method c, shape y0 = [1%nat; n] -> c = None \/ (exists eqs k, shape eqs = [k; S n] /\ c = Some (hull_cons eqs n)) -> well_posed n (MP (avfun_of s) y0 method (Some (avdfun_of s)) [] c)).
  { intros y0 method c S0 HC. split; [|split; [|split]]; cbn [mp_fun mp_jac mp_cons mp_x0].
    - intros y Hy. destruct (callbacks s n TG EW y Hy) as (v & g & F & E & _). eauto.
    - intros y Hy. destruct (callbacks s n TG EW y Hy) as (v & g & F & _ & E & Sg & _ & _ & H). exists g. auto.
    - destruct HC as [->|(eqs & k & SE & ->)]; [exact I|]. destruct (hull_cons eqs n) as [c jc] eqn:EC. exists k. intros y Hy.
      destruct (hull_cons_posed eqs n k SE y Hy) as (v & J & Q). rewrite EC in Q. exists v, J. exact Q.
    - unfold size. rewrite S0. cbn. lia. }
  assert (RUN : forall c method (w : world G U (nd R)), c = None \/ (exists eqs k, shape eqs = [k; S n] /\ c = Some (hull_cons eqs n)) ->
     (dom y0 <- normal2 1 n; mlift (sp_minimize B1 (MP (avfun_of s) y0 method (Some (avdfun_of s)) [] c))) w = (dom y0 <- normal2 1 n; mlift (sp_minimize B2 (MP (avfun_of s) y0 method (Some (avdfun_of s)) [] c))) w).
  { intros c method w0 HC. unfold mbind. destruct (normal2 1 n w0) as [[y0|er] w1] eqn:E0; [|reflexivity]. unfold mlift. rewrite (HB (MP (avfun_of s) y0 method (Some (avdfun_of s)) [] c)); [reflexivity|]. apply PO; auto. eapply normal2_shape; eauto. }
  assert (UB : unbounded_minimize B1 (avfun_of s) d (Some (avdfun_of s)) w = unbounded_minimize B2 (avfun_of s) d (Some (avdfun_of s)) w).
  { unfold unbounded_minimize, mbind, mlift. rewrite HW. cbn [need]. unfold shape2. rewrite SW.
    destruct (get_state w) as [[cs|er] w1]; [|reflexivity]. destruct (seed 42 w1) as [[[]|er] w2]; [|reflexivity].
    rewrite (multistart_ext G U (nd R) 10 _ (dom y0 <- normal2 1 n; mlift (sp_minimize B2 (MP (avfun_of s) y0 "BFGS" (Some (avdfun_of s)) [] None))) _ _ _ w2); [reflexivity|]. intros w3. apply (RUN None "BFGS"%string w3). now left. }
  assert (ZM : zonotope_minimize B1 (avfun_of s) d (Some (avdfun_of s)) w = zonotope_minimize B2 (avfun_of s) d (Some (avdfun_of s)) w).
  { unfold zonotope_minimize, mbind, mlift. rewrite HW. cbn [need]. unfold shape2. rewrite SW.
    destruct (get_state w) as [[cs|er] w1]; [|reflexivity]. destruct (seed 42 w1) as [[[]|er] w2]; [|reflexivity].
    match goal with |- context[multistart 10 ?a ?b ?c ?e w2] => rewrite (multistart_ext G U (nd R) 10 a (dom y0 <- normal2 1 n; mlift (match d_cons d with None => Err TypeError | Some cs => sp_minimize B2 (MP (avfun_of s) y0 "SLSQP" (Some (avdfun_of s)) [] (Some cs)) end)) b c e w2) end; [reflexivity|].
    intros w3. destruct HD as [->|(eqs & k & SE & ->)]; [reflexivity|]. apply (RUN (Some (hull_cons eqs n)) "SLSQP"%string w3). right. eauto. }
  unfold av_minimize. unfold mbind, mlift. destruct (d_kind d).
  - rewrite UB. reflexivity.
  - rewrite HW. cbn [need]. unfold shape2. rewrite SW. destruct (Nat.eqb n 1); [reflexivity|]. rewrite ZM. reflexivity.
  - reflexivity.
Qed.
Print Assumptions C79_problems.

(** the radial basis 2 exp(-y^2) + 5 + 7 y of C39_case: value and slope at 1 *)
Definition s79 (a : avmap) : asrs := ASRS (RSRbf 1 (Some s39)) a.
Example C79_case : forall a, exists v g, avfun_of (s79 a) (mk1 1 (fun _ => 1)) = Ok v /\ v = 2 * exp (-1) + 12 /\ avdfun_of (s79 a) (mk1 1 (fun _ => 1)) = Ok g /\ g.[0%nat] = -4 * exp (-1) + 7.
Proof.
  intros a. eexists _, _. split; [reflexivity|]. 
  assert (E : 0 + (1 - 0) * (1 - 0) * (-1 / 1) = -1) by field. assert (E' : 0 + (0 - 1) * (0 - 1) * (-1 / 1) = -1) by field.
  split; [|split; [reflexivity|]]; cbn; rewrite ?E, ?E'; field.
Qed.
(** and its surface meets the hypotheses of C79_problems *)
Example C79_surface : forall a, true_gradient (rs_predict (as_rs (s79 a))) 1 /\ entrywise (rs_predict (as_rs (s79 a))) 1.
Proof. intros a. apply (rbf_surface 1 s39 1 1); [lia|]. repeat split. Qed.
