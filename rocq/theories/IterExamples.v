(** A concrete two-row system meeting the hypotheses of C31-C33 and C70-C73. *)
Set Warnings "-notation-overridden,-ambiguous-paths".
From mathcomp Require Import all_ssreflect all_algebra.
From mathcomp.algebra_tactics Require Import ring.
From Verif Require Import Py Nd Spec LinAlg Dmx DmxProofs LgpModel LgpTheory LgpProofs
  LinProps LinExamples IterModel IterProps IterProps2 IterProps3.
Set Implicit Arguments. Unset Strict Implicit. Unset Printing Implicit Defensive.
Import Order.Theory GRing.Theory Num.Theory.
Local Open Scope ring_scope.

Definition itA : 'M[rat]_2 := sym2 1 1 (-1).
Definition ity : 'cV[rat]_2 := \matrix_(i, j) (if i == 0 then 2%:R else 0).
Definition itx : 'cV[rat]_2 := \matrix_(i, j) (if i == 0 then 3%:R else 1).
Definition ita : nd rat := Nd [:: 2; 2]%N [:: 1; 1; 1; -1].
Definition itvb : nd rat := Nd [:: 2; 1]%N [:: 0; 0].
Definition itvy : nd rat := nd1 [:: 2%:R; 0].
Definition itvm : nd rat := nd1 [:: 3%:R; 1].
(** Row 1, then row -2 (which is row 0), then row 1 again. *)
Definition itidx : seq int := [:: 1; -2; 1].

Lemma ord2P (P : 'I_2 -> Prop) : P 0 -> P 1 -> forall i, P i.
Proof.
move=> h0 h1 [[|[|//]] h]; first by rewrite (_ : Ordinal h = 0) //; apply: val_inj.
by rewrite (_ : Ordinal h = 1) //; apply: val_inj.
Qed.

Lemma it_ha : holds2 ita itA.
Proof. by split=> //; apply: ord2P; apply: ord2P; rewrite mxE. Qed.
Lemma it_hb : holds_col itvb (0 : 'cV[rat]_2).
Proof. by split; [right | split=> //; apply: ord2P; rewrite mxE]. Qed.
Lemma it_hy : holds_col itvy ity.
Proof. by split; [left | split=> //; apply: ord2P; rewrite mxE]. Qed.
Lemma it_hm : holds1 itvm itx.
Proof. by split=> //; apply: ord2P; rewrite mxE. Qed.
Lemma it_valid : valid_schedule 2 itidx.
Proof.
move=> i; rewrite !inE => /or3P [] /eqP ->; [exists 1 | exists 0 | exists 1]; by [].
Qed.

Lemma it_row (k : 'I_2) (v : 'cV[rat]_2) : (itA *m v) k 0
  = v 0 0 + (if k == 0 then 1 else -1) * v 1 0.
Proof.
rewrite mxE !big_ord_recl big_ord0 !mxE /=.
have -> : lift ord0 ord0 = 1 :> 'I_2 by apply: val_inj.
by rewrite -[v ord0 0]/(v 0 0); move: k; apply: ord2P => /=; ring.
Qed.

Lemma it_sol (k : 'I_2) : satisfies itA 0 ity k (const_mx 1).
Proof. by rewrite /satisfies it_row !mxE; move: k; apply: ord2P. Qed.

Lemma it_nz (k : 'I_2) : row k itA != 0.
Proof.
apply/eqP => /matrixP /(_ 0 0); rewrite !mxE.
by move: k; apply: ord2P.
Qed.

Lemma it_orth (k l : 'I_2) : k != l -> row k itA *m 1%:M *m (row l itA)^T = 0.
Proof.
move=> h; apply: mx11P; rewrite mulmx1 !mxE !big_ord_recl big_ord0 !mxE /=.
by move: k l h; apply: ord2P; apply: ord2P.
Qed.

(** The theorems applied: three epochs over the repeated, negative-index schedule. *)
Example ex_C32 : exists chain (vs : seq 'cV[rat]_2),
  [/\ iterate ita itvb itvy itvm (Some (Dmx (1%:M : 'M_2))) None 3%N (Some itidx) = Ok chain,
      tracks chain vs, size chain = 12%N
    & forall j, (j.+1 < size vs)%N ->
        mahal 1%:M (const_mx 1) (nth 0 vs j.+1) <= mahal 1%:M (const_mx 1) (nth 0 vs j)].
Proof.
have pC := posdef1 rat_realFieldType 2.
have [chain [vs [e t _ h]]] := C32_iteration_is_fejer it_ha isT it_hb it_hy None 3%N pC
  it_valid it_hm (fun i k _ _ => it_sol k).
have [c' [e1 _ sz _ _]] := C33_chain_bookkeeping (1%:M : 'M_2) it_ha isT it_hb it_hy None None 3%N
  it_valid it_hm.
exists chain, vs; split=> //; last by move=> j hj; case: (h j hj).
by move: e1; rewrite e => -[->]; rewrite sz.
Qed.

(** One epoch solves the orthogonal system, and the point is the direct answer. *)
Example ex_C73 : exists chain (vs : seq 'cV[rat]_2),
  [/\ performEpoch ita itvb itvy itvm (Some (Dmx (1%:M : 'M_2))) None (Some itidx) = Ok chain,
      tracks chain vs & itA *m last 0 vs + 0 = ity].
Proof.
have pC := posdef1 rat_realFieldType 2.
have [chain [vs [e t h]]] := C73_orthogonal_rows_one_epoch it_ha isT it_hb it_hy None pC
  it_valid it_hm (fun i k _ _ => it_nz k) it_orth.
exists chain, vs; split=> //; apply/satisfies_all.
by apply: ord2P; [apply: (h (-2)) | apply: (h 1)].
Qed.
