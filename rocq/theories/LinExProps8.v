(** Property C111: the rotation map and the trials on it. *)
Set Warnings "-notation-overridden,-ambiguous-paths".
From mathcomp Require Import all_ssreflect all_algebra.
From Coq Require Import String.
From Verif Require Import Py Nd Spec LinAlg Dmx DmxProofs LgpModel WmeModel WmeProps WmeProps2
  UtilModel2 UtilProps2 LinExModel LinExProps LinExProps2.
Set Implicit Arguments. Unset Strict Implicit. Unset Printing Implicit Defensive.
Import Order.Theory GRing.Theory Num.Theory.
Local Open Scope ring_scope.

Section C111.
Variable R : rcfType.
Variables (G : Type) (reseed : int -> res G) (randn : nat -> G -> seq R * G).
Variables (sin cos : R -> R) (pi : R) (std_eq : R -> R).
Notation rot := (rotation_map reseed randn sin cos pi std_eq).
Notation trials := (rotation_map_trials reseed randn sin cos pi std_eq).

(** Angle number [i] of [n] equally spaced ones from 0 to pi. *)
Definition angle (n i : nat) : R := i%:R * (pi / n.-1%:R).

(** Row i of the operator is (sin, cos) of the i-th angle; the data are produced by the reference
    parameter; the covariance is the equipment deviation times the identity (it is not squared);
    the initial mean is two fresh draws. *)
Theorem C111_rotation_map n tol b ref seed g g0 (B : 'cV[R]_n) (r : 'cV[R]_2) :
  seeded reseed (if seed is Some _ then Some (24 : int) else None) g = Ok g0 ->
  (if b is Some v then v = Dmx B else B = 0) ->
  (if ref is Some v then v = Dmx r else r = const_mx 2%:R^-1) ->
  exists (A : 'M[R]_(n, 2)) (mean : 'cV[R]_2),
  [/\ rot (Posz n) tol b ref seed g
      = ((randn 2 g0).2, Ok (Dmx A, Dmx B, Dmx (A *m r + B), Dmx mean,
                             Dmx ((std_eq tol)%:M : 'M[R]_2), Dmx r)),
      forall i : 'I_n, A i 0 = sin (angle n i) /\ A i 1 = cos (angle n i)
    & forall i : 'I_2, mean i 0 = nth 0 (randn 2 g0).1 i].
Proof.
move=> es hb hr; rewrite /rotation_map es linspaceE; set vec := map _ _.
have sv : size vec = n by rewrite size_map size_iota.
have nv i : (i < n)%N -> nth 0 vec i = angle n i.
  move=> hi; rewrite (nth_map 0%N) ?size_iota // nth_iota // add0n.
  rewrite /tick /angle; case: eqP => [e|_]; last by rewrite mulrA [pi * _]mulrC.
  by move: hi; rewrite e ltnS leqn0 => /eqP ->; rewrite mul0r.
pose A : 'M[R]_(n, 2) := \matrix_(i, j) (if j == 0 then sin (angle n i) else cos (angle n i)).
rewrite sv.
have -> : dbuild n 2 (fun i j => if j == 0%N then sin (nth 0 vec i) else cos (nth 0 vec i)) = Dmx A.
  by apply: dbuildE => i j; rewrite mxE nv.
have -> : odflt (dzeros n 1) b = Dmx B by case: (b) hb => //= ->.
have -> : odflt (dbuild 2 1 (fun _ _ => 2%:R^-1)) ref = Dmx r.
  case: (ref) hr => //= ->; apply: dbuildE => i j; by rewrite mxE.
rewrite dmulE; cbn [rbind]; rewrite daddE.
case: (randn 2 g0) => z g1 /=.
exists A, (mat_of 2 1 z); split.
- by rewrite dmatE -scalemx1.
- by move=> i; rewrite !mxE.
- by move=> i; rewrite mxE muln1 addn0.
Qed.

(** The rows are unit vectors. *)
Theorem C111_unit_rows n tol b ref seed g g' A B y mean C r :
  (forall t, sin t ^+ 2 + cos t ^+ 2 = 1) ->
  rot (Posz n) tol b ref seed g = (g', Ok (A, B, y, mean, C, r)) ->
  dr A = n /\ dc A = 2%N /\ forall i, (i < n)%N -> dget A i 0 ^+ 2 + dget A i 1 ^+ 2 = 1.
Proof.
move=> h; rewrite /rotation_map; case: (seeded _ _ _) => [g0|//].
rewrite linspaceE; set vec := map _ _; rewrite size_map size_iota.
case: (rbind _ _) => [y'|//]; case: (randn 2 g0) => z g1 [_ <- _ _ _ _ _]; split=> //; split=> // i hi.
by rewrite !dget_build //= h.
Qed.

(** Every seed has the effect of the seed 24. *)
Theorem C111_seed_ignored qnum tol b ref s s' g g' :
  (rot qnum tol b ref (Some s) g).2 = (rot qnum tol b ref (Some s') g').2.
Proof. by rewrite /rotation_map /=; case: (reseed 24) => [g0|e]. Qed.

(** A negative number of quantities is rejected. *)
Theorem C111_negative_count k tol b ref seed g g0 :
  seeded reseed (if seed is Some _ then Some (24 : int) else None) g = Ok g0 ->
  (rot (Negz k) tol b ref seed g).2 = Err ValueError.
Proof. by move=> es; rewrite /rotation_map es. Qed.

(** The trials never finish one trial. *)
Theorem C111_trials_fail draw n method num_trials budget seed g g0 :
  seeded reseed (if seed is Some _ then Some (24 : int) else None) g = Ok g0 ->
  (trials draw n method num_trials budget seed g).2 =
  if n == 0%N then Err ZeroDivisionError else
  if num_trials == 0%N then Ok tt else Err TypeError.
Proof.
move=> es; rewrite /rotation_map_trials.
have [A [mean [-> _ _]]] := @C111_rotation_map n (10%:R^-1) None None seed g g0 0 _ es erefl erefl.
by case: ifP => //; case: ifP.
Qed.
End C111.
