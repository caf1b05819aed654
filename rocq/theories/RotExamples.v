(** Concrete cases for C156 and C157. *)
Set Warnings "-notation-overridden,-ambiguous-paths".
From mathcomp Require Import all_ssreflect all_algebra fingroup perm.
From Coq Require Import String.
From Verif Require Import Py Nd Spec LinAlg Dmx DmxProofs LgpModel LgpProofs LinProps LinProps3 WmeModel WmeProps WmeProps2
  WmeExamples OrderProps RotProps WmeOrderProps.
Set Implicit Arguments. Unset Strict Implicit. Unset Printing Implicit Defensive.
Import Order.Theory GRing.Theory Num.Theory.
Local Open Scope ring_scope.

Section RotExamples.
Variable R : rcfType.
Notation sw := (tperm (0 : 'I_2) 1).

(** A map of rank one (its second row is twice the first), with data and parameters swapped. *)
Definition rx_A : 'M[R]_2 := \matrix_(i, j) ((i.+1 * j.+1)%:R).
Definition rx_b : 'cV[R]_2 := \col_i i%:R.
Definition rx_A' : 'M[R]_2 := \matrix_(i, j) rx_A (sw i) (sw j).
Definition rx_b' : 'cV[R]_2 := \col_i rx_b (sw i) 0.

Lemma rx_rank : (\rank rx_A <= 1)%N.
Proof.
have -> : rx_A = (\col_i i.+1%:R) *m (\row_j j.+1%:R).
  by apply/matrixP => i j; rewrite !mxE big_ord_recl big_ord0 !mxE natrM addr0.
exact: leq_trans (mxrankM_maxl _ _) (rank_leq_col _).
Qed.

Lemma C156_example : exists p p' : lgp R,
  [/\ lgp_init (nd_of_dmx (Dmx rx_A)) (Some (nd_of_dmx (Dmx rx_b))) None None None None None = Ok p,
      lgp_init (nd_of_dmx (Dmx rx_A')) (Some (nd_of_dmx (Dmx rx_b'))) None None None None None = Ok p',
      relisted sw sw p p', lb p <> lb p'
    & both (val_rel (listed_vec sw)) (solve p "all" None).2 (solve p' "all" None).2].
Proof.
have z k (t : 'S_k) : \col_j (0 : 'cV[R]_k) (t j) 0 = 0 by apply/matrixP => i j; rewrite !mxE.
have e k (t : 'S_k) : \matrix_(i, j) (1%:M : 'M[R]_k) (t i) (t j) = 1%:M.
  by apply/matrixP => i j; rewrite !mxE (inj_eq perm_inj).
have [p [p' [e1 e2 rel _ _]]] := @C156_constructor R 2 2 sw sw (nd_of_dmx (Dmx rx_A)) (nd_of_dmx (Dmx rx_A'))
  (Some (nd_of_dmx (Dmx rx_b))) (Some (nd_of_dmx (Dmx rx_b'))) None None None None None None None None None rx_A rx_b 0 0 1%:M 1%:M
  (holds2_nd rx_A) (holds1_nd rx_b) erefl erefl erefl erefl (holds2_nd rx_A') (holds1_nd rx_b') (z _ _) (z _ _) (e _ _) (e _ _).
exists p, p'; split=> //; last exact: (C156_order rel).
have [_ hb _ _ _] := C21_init_attributes e1; have [_ hb' _ _ _] := C21_init_attributes e2.
rewrite hb hb' !(dcol_holds (holds1_nd _)) => /Dmx_inj /matrixP /(_ 0 0) /eqP.
by rewrite !mxE tpermL /= eq_sym oner_eq0.
Qed.

(** Two quantities, one with an operator row per datum and one with a single row: observations in another order. *)
Definition rx_ops := [:: ex_op R 2; ex_op R 1].
Definition rx_dat : seq (seq R) := [:: [:: 1; 2%:R]; [:: 1; 2%:R; 3%:R]].
Definition rx_shs (i : nat) : seq nat := if i is 0%N then [:: 1; 0]%N else [:: 2; 0; 1]%N.
Definition rx_ops' := [:: op_pick [:: 1; 0]%N (ex_op R 2); ex_op R 1].
Definition rx_dat' : seq (seq R) := [:: [:: 2%:R; 1]; [:: 3%:R; 1; 2%:R]].

Lemma C157_example_observations : (exists p, lwme_init rx_ops rx_dat (LNum 1) None None None None None = Ok p) /\
  same_but_order rx_ops rx_ops' rx_dat rx_dat' (LNum 1) (LNum 1) rx_shs.
Proof.
split; first exact: ex_lwme.
split=> // -[|[|//]] _; split=> //=.
- by split=> //; right.
- by split=> //; left.
Qed.

(** The quantities in another order. *)
Lemma C157_example_quantities : forall p, lwme_init rx_ops rx_dat (LNum 1) None None None None None = Ok p ->
  exists p', lwme_init (rev rx_ops) (rev rx_dat) (LNum 1) None None None None None = Ok p' /\ relisted sw (1%g : 'S_2) p p'.
Proof.
move=> p hp.
have z : \col_j (0 : 'cV[R]_2) (sw j) 0 = 0 by apply/matrixP => i j; rewrite !mxE.
have e : \matrix_(i, j) (1%:M : 'M[R]_2) (sw i) (sw j) = 1%:M by apply/matrixP => i j; rewrite !mxE (inj_eq perm_inj).
have s0 : sw 0 = 1 by rewrite tpermL.
have s1 : sw 1 = 0 by rewrite tpermR.
have all2 (P : 'I_2 -> Prop) : P 0 -> P 1 -> forall i, P i.
  move=> p0 p1 [[|[|//]] hi]; first by have -> : Ordinal hi = 0 by apply: val_inj.
  by have -> : Ordinal hi = 1 by apply: val_inj.
have [||||||||||p' [e1 e2 _ _]] := @C157_quantities R 2 2 rx_ops (rev rx_ops) rx_dat (rev rx_dat) (LNum 1) (LNum 1) None None None
   None None None None p 0 0 1%:M 1%:M sw _ _ _ _ _ _ _ _ _ _ hp => //.
- by apply: all2.
- by apply: all2; rewrite ?s0 ?s1.
- by exists p'.
Qed.
End RotExamples.
