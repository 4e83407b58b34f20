(** Rules of differentiation in the form "function of t", and a tactic that
    applies them. *)
From Coq Require Import Reals Lra Lia.
From Verif Require Import Prelude.
Open Scope R_scope.

Notation D := derivable_pt_lim.

Lemma D_eq : forall f x l l', D f x l -> l = l' -> D f x l'.
Proof. intros f x l l' H <-. exact H. Qed.
Lemma D_const : forall c x, D (fun _ => c) x 0.
Proof. intros. exact (derivable_pt_lim_const c x). Qed.
Lemma D_id : forall x, D (fun t => t) x 1.
Proof. intros. exact (derivable_pt_lim_id x). Qed.
Lemma D_plus : forall f g x a b, D f x a -> D g x b -> D (fun t => f t + g t) x (a + b).
Proof. intros f g x a b Hf Hg. exact (derivable_pt_lim_plus f g x a b Hf Hg). Qed.
Lemma D_minus : forall f g x a b, D f x a -> D g x b -> D (fun t => f t - g t) x (a - b).
Proof. intros f g x a b Hf Hg. exact (derivable_pt_lim_minus f g x a b Hf Hg). Qed.
Lemma D_opp : forall f x a, D f x a -> D (fun t => - f t) x (- a).
Proof. intros f x a Hf. exact (derivable_pt_lim_opp f x a Hf). Qed.
Lemma D_mult : forall f g x a b, D f x a -> D g x b -> D (fun t => f t * g t) x (a * g x + f x * b).
Proof. intros f g x a b Hf Hg. exact (derivable_pt_lim_mult f g x a b Hf Hg). Qed.
Lemma D_div : forall f g x a b, D f x a -> D g x b -> g x <> 0 ->
  D (fun t => f t / g t) x ((a * g x - b * f x) / Rsqr (g x)).
Proof. intros f g x a b Hf Hg H. exact (derivable_pt_lim_div f g x a b Hf Hg H). Qed.
Lemma D_comp : forall f g x a b, D f x a -> D g (f x) b -> D (fun t => g (f t)) x (b * a).
Proof. intros f g x a b Hf Hg. exact (derivable_pt_lim_comp f g x a b Hf Hg). Qed.
Lemma D_pow : forall n f x a, D f x a -> D (fun t => f t ^ n) x (INR n * f x ^ pred n * a).
Proof. intros n f x a Hf. exact (D_comp f (fun y => y ^ n) x a _ Hf (derivable_pt_lim_pow (f x) n)). Qed.
Lemma D_sqrt : forall f x a, D f x a -> 0 < f x -> D (fun t => sqrt (f t)) x (/ (2 * sqrt (f x)) * a).
Proof. intros f x a Hf H. exact (D_comp f sqrt x a _ Hf (derivable_pt_lim_sqrt (f x) H)). Qed.
Lemma D_ln : forall f x a, D f x a -> 0 < f x -> D (fun t => ln (f t)) x (/ f x * a).
Proof. intros f x a Hf H. exact (D_comp f ln x a _ Hf (derivable_pt_lim_ln (f x) H)). Qed.
Lemma D_exp : forall f x a, D f x a -> D (fun t => exp (f t)) x (exp (f x) * a).
Proof. intros f x a Hf. exact (D_comp f exp x a _ Hf (derivable_pt_lim_exp (f x))). Qed.
Lemma D_cos : forall f x a, D f x a -> D (fun t => cos (f t)) x (- sin (f x) * a).
Proof. intros f x a Hf. exact (D_comp f cos x a _ Hf (derivable_pt_lim_cos (f x))). Qed.
Lemma D_sin : forall f x a, D f x a -> D (fun t => sin (f t)) x (cos (f x) * a).
Proof. intros f x a Hf. exact (D_comp f sin x a _ Hf (derivable_pt_lim_sin (f x))). Qed.

(** only values near x count *)
Lemma D_local : forall f g x l, D f x l ->
  (exists e, 0 < e /\ forall y, Rabs (y - x) < e -> g y = f y) -> D g x l.
Proof.
  intros f g x l H (e & He & E) eps Heps. destruct (H eps Heps) as [d Hd].
  exists (mkposreal _ (Rmin_pos _ _ (cond_pos d) He)). simpl. intros h Hh Hb.
  rewrite (E (x + h)), (E x).
  - apply Hd; auto. eapply Rlt_le_trans; [exact Hb | apply Rmin_l].
  - rewrite Rminus_diag_eq, Rabs_R0 by reflexivity. exact He.
  - replace (x + h - x) with h by ring. eapply Rlt_le_trans; [exact Hb | apply Rmin_r].
Qed.
Lemma D_ext : forall f g x l, D f x l -> (forall y, g y = f y) -> D g x l.
Proof. intros f g x l H E. apply (D_local f g x l H). exists 1. split; [lra | auto]. Qed.

(** a function with a derivative stays positive near a point where it is *)
Lemma D_pos : forall f x a, D f x a -> 0 < f x -> exists e, 0 < e /\ forall y, Rabs (y - x) < e -> 0 < f y.
Proof.
  intros f x a H P. destruct (H 1 ltac:(lra)) as [d Hd].
  set (m := Rmin d (f x / (Rabs a + 2))).
  assert (A : 0 < Rabs a + 2) by (pose proof (Rabs_pos a); lra).
  exists m. split. { apply Rmin_pos; [apply cond_pos | apply Rdiv_lt_0_compat; auto]. }
  intros y Hy. destruct (Req_dec (y - x) 0) as [E|N]. { replace y with x by lra. exact P. }
  specialize (Hd (y - x) N (Rlt_le_trans _ _ _ Hy (Rmin_l _ _))).
  replace (x + (y - x)) with y in Hd by ring.
  assert (B : Rabs (y - x) * (Rabs a + 1) < f x).
  { apply Rle_lt_trans with (f x / (Rabs a + 2) * (Rabs a + 1)).
    - apply Rmult_le_compat_r; [pose proof (Rabs_pos a); lra |].
      apply Rlt_le. eapply Rlt_le_trans; [exact Hy | apply Rmin_r].
    - assert (E1 : f x / (Rabs a + 2) * (Rabs a + 2) = f x) by (field; lra).
      assert (E2 : 0 < f x / (Rabs a + 2)) by (apply Rdiv_lt_0_compat; auto). lra. }
  assert (C : Rabs (f y - f x) <= Rabs (y - x) * (Rabs a + 1)).
  { replace (f y - f x) with ((y - x) * (((f y - f x) / (y - x) - a) + a)) by (field; auto).
    rewrite Rabs_mult. apply Rmult_le_compat_l. apply Rabs_pos.
    eapply Rle_trans; [apply Rabs_triang |]. lra. }
  pose proof (Rle_abs (- (f y - f x))) as E. rewrite Rabs_Ropp in E. lra.
Qed.

Ltac dstep :=
  match goal with
  | H : D ?f ?x _ |- D ?f ?x _ => exact H
  | H : D ?f ?x _ |- D (fun t => ?f t) ?x _ => exact H
  | |- D (fun _ => ?c) _ _ => apply D_const
  | |- D (fun t => t) _ _ => apply D_id
  | |- D (fun t => @?f t + @?g t) _ _ => eapply (D_plus f g)
  | |- D (fun t => @?f t - @?g t) _ _ => eapply (D_minus f g)
  | |- D (fun t => - @?f t) _ _ => eapply (D_opp f)
  | |- D (fun t => @?f t * @?g t) _ _ => eapply (D_mult f g)
  | |- D (fun t => @?f t / @?g t) _ _ => eapply (D_div f g)
  | |- D (fun t => (@?f t) ^ ?n) _ _ => eapply (D_pow n f)
  | |- D (fun t => sqrt (@?f t)) _ _ => eapply (D_sqrt f)
  | |- D (fun t => ln (@?f t)) _ _ => eapply (D_ln f)
  | |- D (fun t => exp (@?f t)) _ _ => eapply (D_exp f)
  | |- D (fun t => cos (@?f t)) _ _ => eapply (D_cos f)
  | |- D (fun t => sin (@?f t)) _ _ => eapply (D_sin f)
  end.
Ltac deriv := eapply D_eq; [ repeat dstep; cbv beta | cbv beta ].
