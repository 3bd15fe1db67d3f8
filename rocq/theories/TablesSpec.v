(** * TablesSpec: what C81 says about the tables, independently of how Tables.v builds them. *)
From Coq Require Import Reals.
From mathcomp Require Import all_ssreflect all_algebra.
From Verif Require Import RInst Experiments Tables.

Set Implicit Arguments.
Unset Strict Implicit.
Unset Printing Implicit Defensive.
Import GRing.Theory Num.Theory Order.TTheory.
Local Open Scope ring_scope.

(** A table with one row for each label in [dom], holding [f label]. *)
Definition shows (L A : eqType) (t : option (seq (L * A))) (dom : L -> Prop) (f : L -> A) :=
  exists2 rows, t = Some rows & uniq (unzip1 rows) /\ forall l v, (l, v) \in rows <-> dom l /\ v = f l.

(** Shapes of arrays. *)
Definition shape1 (A : Type) (a : seq A) (k : nat) := size a = k.
Definition shape2 (A : Type) (a : seq (seq A)) (k l : nat) := size a = k /\ forall i, (i < k)%N -> shape1 (nth [::] a i) l.
Definition shape3 (A : Type) (a : seq (seq (seq A))) (k l m : nat) := size a = k /\ forall i, (i < k)%N -> shape2 (nth [::] a i) l m.
Definition shape4 (A : Type) (a : seq (seq (seq (seq A)))) (k l m o : nat) :=
  size a = k /\ forall i, (i < k)%N -> shape3 (nth [::] a i) l m o.

(** Entries. *)
Definition at2 (a : seq (seq R)) i j : R := (nth [::] a i)`_j.
Definition at3 (a : seq (seq (seq R))) i j k : R := at2 (nth [::] a i) j k.
Definition at4 (a : seq (seq (seq (seq R)))) i j k l : R := at3 (nth [::] a i) j k l.

(** [m] is the least or greatest entry of [s]. *)
Definition is_min (s : seq R) (m : R) := m \in s /\ forall v, v \in s -> m <= v.
Definition is_max (s : seq R) (m : R) := m \in s /\ forall v, v \in s -> v <= m.
(** [m] halves [s]: at least half of the entries are on either side of it; a median is the middle of the points that do. *)
Definition halves (s : seq R) (m : R) :=
  (size s <= 2 * count (fun v => (v <= m)%R) s)%N /\ (size s <= 2 * count (fun v => (m <= v)%R) s)%N.
Definition is_median (s : seq R) (m : R) := halves s m /\ forall w, halves s w -> halves s (m + (m - w)).

(** What a name in the paper says about a kernel, and what the library function does: particles or single states;
    proposals from the Gaussian dynamics ("GRAD"); gradients of the potentials (kappa = 1); of two kernels with
    gradients, the one that keeps auxiliary variables ("a"); twisted; gradients of the smoothing kind ("+"). *)
Record features := { f_particles : bool; f_gaussian : bool; f_gradient : bool; f_auxiliary : bool; f_twisted : bool; f_plus : bool }.
Definition name_says (nm : paper_name) : features :=
  let: (l, q) := nm in
  let tw := if q is Some (_, t) then t else false in
  let kappa1 := if q is Some (k, _) then k == 1%N else true in
  match l with
  | n_CSMC => Build_features true false false false tw false
  | n_Particle_RWM => Build_features true false false false tw false
  | n_Particle_aGRAD => Build_features true true kappa1 true tw false
  | n_Particle_mGRAD => Build_features true true kappa1 false tw false
  | n_Particle_aMALA => Build_features true false true true tw false
  | n_Particle_MALA => Build_features true false true false tw false
  | n_Particle_aMALA_plus => Build_features true false true true tw true
  | n_aGRAD => Build_features false true true true tw false
  | n_aMALA => Build_features false false true true tw false
  | n_MALA => Build_features false false true false tw false
  end.
Definition kernel_does (i : impl) : features :=
  match i with
  | Kcsmc => Build_features true false false false false false
  | Krw => Build_features true false false false false false
  | Kal_f => Build_features true false true true false false
  | Kal_s => Build_features true false true true false true
  | Kl_f => Build_features true false true false false false
  | Ktp_csmc sg => Build_features true true (~~ sg) false false false
  | Katp_f sg => Build_features true true (~~ sg) true false false
  | Katp_s sg => Build_features true true (~~ sg) true false true
  | Kt_atp sg => Build_features true true (~~ sg) true true false
  | Ktp => Build_features false true true true false false
  | Kmala aux sg => Build_features false false (~~ sg) aux false false
  | Kimh => Build_features false true false false false false
  end.

(** The summary of a row of effective sample sizes that a label stands for. *)
Definition is_stat (s : ess_stat) : seq R -> R -> Prop :=
  match s with st_min => is_min | st_med => is_median | st_max => is_max end.
