(** Small concrete objects used by the non-vacuity examples. *)
From Coq Require Import Reals Lra Lia List Arith.
From Verif Require Import Prelude Py NumArr.
Import ListNotations.
Open Scope R_scope.

(** A counter as random generator: uniform draws alternate 1/4, 1/2. *)
Program Definition toy_gen : gen := {|
  gst := nat;
  g_seed := fun n => n;
  g_normal := fun s => (INR (s mod 3) - 1, S s);
  g_unif := fun s => ((if Nat.even s then / 4 else / 2), S s);
  g_randint := fun hi s => ((s mod hi)%nat, S s)
|}.
Next Obligation. destruct (Nat.even s); simpl; lra. Defined.
Next Obligation. apply Nat.mod_upper_bound. lia. Defined.

Definition toy_world {U L} (u : U) : world toy_gen U L := World (0%nat : gst toy_gen) u [] 0.

(** matrices from lists of rows *)
Definition mat_of (l : list (list R)) : nd R :=
  mk2 (List.length l) (List.length (nth 0 l [])) (fun i j => nth j (nth i l []) 0).
Definition vec_of (l : list R) : nd R := mk1 (List.length l) (fun i => nth i l 0).
