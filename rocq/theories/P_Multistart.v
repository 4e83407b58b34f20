(** The multistart loops: start points, outcome and random state *)
From Coq Require Import String Reals Lra Lia List Arith ZArith Bool.
From Verif Require Import Prelude Py NumArr M_Misc M_Subspaces M_QP M_Domains P_Domains Properties_Domains P_Zonotope M_Designs.
Import ListNotations.
Open Scope R_scope.

(** the i-th start point of shape (r, c) drawn from the random state s *)
Definition start {G : gen} (r c : nat) (s : gst G) (i : nat) : nd R :=
  mk2 r c (fun a b => nth (a * c + b) (fst (normals (r * c) (snd (normals (i * (r * c)) s)))) 0).

Section Spec.
  Context {G : gen} {U L : Type}.
  Notation W := (world G U L).
  Variables (r c : nat) (solve : nd R -> res mres) (msg : string).

  (** the i-th run went well *)
  Definition good (s : gst G) (i : nat) (v : mres) : Prop := solve (start r c s i) = Ok v /\ mr_success v = true.
  (** the i-th run is the first that raises or reports failure, and the exception *)
  Definition fails (s : gst G) (i : nat) (e : exn) : Prop :=
    (forall i', (i' < i)%nat -> exists v, good s i' v) /\
    (solve (start r c s i) = Err e \/ exists v, solve (start r c s i) = Ok v /\ mr_success v = false /\ e = Exc msg).
  (** o is the first of the k runs with the smallest value, if below minf *)
  Definition best (s : gst G) (k : nat) (minf : R) (o0 o : option mres) : Prop :=
    (o = o0 /\ forall i v, (i < k)%nat -> good s i v -> minf <= mr_fun v) \/
    (exists i v, (i < k)%nat /\ o = Some v /\ good s i v /\ mr_fun v < minf /\
       (forall i' v', (i' < k)%nat -> good s i' v' -> mr_fun v <= mr_fun v') /\
       (forall i' v', (i' < i)%nat -> good s i' v' -> mr_fun v < mr_fun v')).
  (** the random state after k start points *)
  Definition after (s : gst G) (k : nat) : gst G := snd (normals (k * (r * c)) s).

  Lemma after_S : forall (s : gst G) k, after s (S k) = after (snd (normals (r * c) s)) k.
  Proof. intros s k. unfold after. cbn [Nat.mul]. now rewrite normals_app. Qed.
  Lemma start_S : forall (s : gst G) i, start r c s (S i) = start r c (snd (normals (r * c) s)) i.
  Proof. intros s i. unfold start. cbn [Nat.mul]. now rewrite normals_app. Qed.
  Lemma good_S : forall (s : gst G) i v, good s (S i) v <-> good (snd (normals (r * c) s)) i v.
  Proof. intros s i v. unfold good. now rewrite start_S. Qed.
  Lemma good_det : forall (s : gst G) i v v', good s i v -> good s i v' -> v = v'.
  Proof. intros s i v v' [A _] [B _]. congruence. Qed.

  Lemma multistart_spec : forall k minf o0 (w : W),
    let out := multistart k (dom y0 <- normal2 r c; mlift (solve y0)) msg minf o0 w in
    (exists i e, (i < k)%nat /\ fails (rng w) i e /\ out = (Err e, set_rng w (after (rng w) (S i)))) \/
    ((forall i, (i < k)%nat -> exists v, good (rng w) i v) /\ exists o, out = (Ok o, set_rng w (after (rng w) k)) /\ best (rng w) k minf o0 o).
  Proof.
    induction k; intros minf o0 w out.
    - subst out. cbn [multistart]. right. split; [intros; lia|]. exists o0. unfold mret, after. simpl. destruct w. split; [reflexivity|]. left. split; auto. intros; lia.
    - set (w1 := set_rng w (snd (normals (r * c) (rng w)))).
      assert (ER : (dom y0 <- normal2 r c; mlift (solve y0)) w = (solve (start r c (rng w) 0), w1)).
      { unfold normal2, mbind. rewrite repeat_normals. reflexivity. }
      assert (A1 : forall j, set_rng w1 (after (rng w1) j) = set_rng w (after (rng w) (S j))) by (intros j; rewrite after_S; reflexivity).
      assert (EO : out = match solve (start r c (rng w) 0) with
        | Ok v => (if negb (mr_success v) then merr (Exc msg) else if Rlt_dec (mr_fun v) minf then multistart k (dom y0 <- normal2 r c; mlift (solve y0)) msg (mr_fun v) (Some v) else multistart k (dom y0 <- normal2 r c; mlift (solve y0)) msg minf o0) w1
        | Err e => (Err e, w1) end) by (unfold out; cbn [multistart]; unfold mbind at 1; rewrite ER; destruct (solve (start r c (rng w) 0)); reflexivity).
      clearbody out. subst out. destruct (solve (start r c (rng w) 0)) as [v|e] eqn:ES.
      2:{ left. exists 0%nat, e. split; [lia|]. split; [split; [intros; lia|now left]|]. rewrite after_S. reflexivity. }
      destruct (mr_success v) eqn:EV; cbn [negb].
      2:{ left. exists 0%nat, (Exc msg). split; [lia|]. split; [split; [intros; lia|right; eauto]|]. rewrite after_S. reflexivity. }
      assert (G0 : good (rng w) 0 v) by (split; auto).
      assert (SH : forall i e, fails (rng w1) i e -> fails (rng w) (S i) e).
      { intros i e [F1 F2]. split; [|rewrite start_S; exact F2]. intros [|i'] Hi; [eauto|]. destruct (F1 i' ltac:(lia)) as (v' & Gv). exists v'. now apply good_S. }
      assert (GA : (forall i, (i < k)%nat -> exists v, good (rng w1) i v) -> forall i, (i < S k)%nat -> exists v, good (rng w) i v).
      { intros H [|i] Hi; [eauto|]. destruct (H i ltac:(lia)) as (v' & Gv). exists v'. now apply good_S. }
      destruct (Rlt_dec (mr_fun v) minf) as [Lt|Ge].
      + destruct (IHk (mr_fun v) (Some v) w1) as [(i & e & Hi & F & E)|(H & o & E & B)].
        * left. exists (S i), e. split; [lia|]. split; [auto|]. rewrite E, A1. reflexivity.
        * right. split; [auto|]. exists o. split; [rewrite E, A1; reflexivity|]. right. destruct B as [[-> B]|(i & v' & Hi & -> & Gv & Lv & B1 & B2)].
          -- exists 0%nat, v. split; [lia|]. split; [reflexivity|]. split; [exact G0|]. split; [exact Lt|]. split; [|intros; lia].
             intros [|i'] v' Hi' G'; [rewrite (good_det _ _ _ _ G0 G'); lra|]. apply (B i' v' ltac:(lia)). now apply good_S.
          -- exists (S i), v'. split; [lia|]. split; [reflexivity|]. split; [now apply good_S|]. split; [lra|]. split.
             ++ intros [|i'] v2 Hi' G'; [rewrite <- (good_det _ _ _ _ G0 G'); lra|]. apply (B1 i' v2 ltac:(lia)). now apply good_S.
             ++ intros [|i'] v2 Hi' G'; [rewrite <- (good_det _ _ _ _ G0 G'); lra|]. apply (B2 i' v2 ltac:(lia)). now apply good_S.
      + destruct (IHk minf o0 w1) as [(i & e & Hi & F & E)|(H & o & E & B)].
        * left. exists (S i), e. split; [lia|]. split; [auto|]. rewrite E, A1. reflexivity.
        * right. split; [auto|]. exists o. split; [rewrite E, A1; reflexivity|]. destruct B as [[-> B]|(i & v' & Hi & -> & Gv & Lv & B1 & B2)].
          -- left. split; auto. intros [|i'] v' Hi' G'; [rewrite <- (good_det _ _ _ _ G0 G'); lra|]. apply (B i' v' ltac:(lia)). now apply good_S.
          -- right. exists (S i), v'. split; [lia|]. split; [reflexivity|]. split; [now apply good_S|]. split; [lra|]. split.
             ++ intros [|i'] v2 Hi' G'; [rewrite <- (good_det _ _ _ _ G0 G'); lra|]. apply (B1 i' v2 ltac:(lia)). now apply good_S.
             ++ intros [|i'] v2 Hi' G'; [rewrite <- (good_det _ _ _ _ G0 G'); lra|]. apply (B2 i' v2 ltac:(lia)). now apply good_S.
  Qed.
  Lemma fails_index : forall (s : gst G) i e i' e', fails s i e -> fails s i' e' -> i = i'.
  Proof.
    intros s i e i' e' F F'. destruct (Nat.lt_total i i') as [C1|[C1|C1]]; auto; exfalso.
    - destruct (proj1 F' i C1) as (v & Gv & Sv). destruct (proj2 F) as [X|(v' & X & Y & _)]; congruence.
    - destruct (proj1 F i' C1) as (v & Gv & Sv). destruct (proj2 F') as [X|(v' & X & Y & _)]; congruence.
  Qed.
  Lemma fails_det : forall (s : gst G) i e i' e', fails s i e -> fails s i' e' -> e = e'.
  Proof.
    intros s i e i' e' F F'. pose proof (fails_index _ _ _ _ _ F F') as <-. destruct (proj2 F) as [X|(v' & X & Y & ->)], (proj2 F') as [X'|(v2 & X' & Y' & ->)]; congruence.
  Qed.
  Lemma fails_good : forall (s : gst G) k i e, (i < k)%nat -> fails s i e -> (forall i, (i < k)%nat -> exists v, good s i v) -> False.
  Proof. intros s k i e Hi F H. destruct (H i Hi) as (v & Gv & Sv). destruct (proj2 F) as [X|(v' & X & Y & _)]; congruence. Qed.
  Lemma best_det : forall (s : gst G) k minf o0 o o', best s k minf o0 o -> best s k minf o0 o' -> o = o'.
  Proof.
    intros s k minf o0 o o' Bt Bt'.
    destruct Bt as [[-> B1]|(i & v & Hi & -> & Gv & Lv & B1 & B2)], Bt' as [[-> B1']|(i' & v' & Hi' & -> & Gv' & Lv' & B1' & B2')]; auto.
    - exfalso. specialize (B1 _ _ Hi' Gv'). lra.
    - exfalso. specialize (B1' _ _ Hi Gv). lra.
    - f_equal. assert (i = i') as ->; [|eapply good_det; eauto].
      destruct (Nat.lt_total i i') as [C1|[C1|C1]]; auto; exfalso; [specialize (B2' _ _ C1 Gv); specialize (B1 _ _ Hi' Gv')|specialize (B2 _ _ C1 Gv'); specialize (B1' _ _ Hi Gv)]; lra.
  Qed.
End Spec.
