(** Theorems added after automated mutation of the model: parts of C35, C58, C89, C125 and C134. *)
Set Warnings "-notation-overridden,-ambiguous-paths".
From Coq Require Import String ZArith.
From mathcomp Require Import all_ssreflect all_algebra.
From Verif Require Import Py Nd Dmx Xnum UtilModel DensityModel NdProofs LgpModel IterModel DrawModel BayesModel StModel StProps AdcModel.
Set Implicit Arguments. Unset Strict Implicit. Unset Printing Implicit Defensive.
Import Order.Theory GRing.Theory Num.Theory.
Local Open Scope ring_scope.

(** ** C58: sensors and times that were not set *)
Section Axes.
Variable R : rcfType.
Notation nd := (nd R).
(** With neither sensors nor times, m columns of data: one sensor with the coordinate 0, and the
    times 0, ..., m - 1. *)
Theorem C58_default_axes (s : st R) (a : nd) n m : shape a = [:: n; m] -> s_sens s = None -> s_times s = None ->
  exists se ti, [/\ set_data s a = (with_data (with_times (with_sens s (Some se)) (Some ti)) a, Ok tt),
    shape se = [:: 1%N], data se = [:: 0], shape ti = [:: m] &
    forall i, (i < m)%N -> nth (-1) (data ti) i = i%:R].
Proof.
move=> sh e1 e2; exists (arr0 R), (arange R m).
have e : data_2d a = Ok a by rewrite /data_2d /ndim sh.
rewrite (set_dataE s e) e1 e2 /dim sh; split=> //; first by rewrite /arange /nd1 /= size_map size_iota.
by move=> i hi; rewrite (nth_map 0%N) ?size_iota // nth_iota.
Qed.
(** With sensors only, one per column: the time 0; with times only, one per column: one sensor,
    with the coordinate 0. *)
Theorem C58_default_axis (s : st R) (a : nd) n m : shape a = [:: n; m] ->
  (forall se, s_sens s = Some se -> s_times s = None -> ndim se != 0%N -> dim se 0 = m ->
     exists ti, [/\ set_data s a = (with_data (with_times s (Some ti)) a, Ok tt), shape ti = [:: 1%N] & data ti = [:: 0]]) /\
  (forall ti, s_times s = Some ti -> s_sens s = None -> ndim ti != 0%N -> dim ti 0 = m ->
     exists se, [/\ set_data s a = (with_data (with_sens s (Some se)) a, Ok tt), shape se = [:: 1%N] & data se = [:: 0]]).
Proof.
move=> sh; have e : data_2d a = Ok a by rewrite /data_2d /ndim sh.
by split=> x e1 e2 n0 dx; exists (arr0 R); rewrite (set_dataE s e) e1 e2 /shape0 (negbTE n0) dx /dim sh eqxx.
Qed.
End Axes.
Example C58_default_axes_met (R : rcfType) : let s := ST None None None None None None None None None None : st R in
  s_sens s = None /\ s_times s = None.
Proof. by []. Qed.

(** ** C35: chains of which one only has its starting point *)
Theorem C35_one_chain_too_short (R : rcfType) (p : ilp R) ref c c' : List.In c (ichains p) -> List.In c' (ichains p) ->
  (size c <= 1)%N -> (1 < size c')%N -> ilp_get_errors p ref = (p, Err ValueError).
Proof.
move=> ic ic' h h'; rewrite /ilp_get_errors.
have H q (f : seq (dmx R) -> bool) : List.In q (ichains p) -> f (behead q) -> has f [seq behead c | c <- ichains p].
  by elim: (ichains p) => [//|x l ih] /= [->|/ih k] => [->|/k ->] //; rewrite orbT.
rewrite (H c) ?(H c') //; first by case: (ichains p) ic.
  by rewrite size_behead; case: (size c') h' => [|[]].
by rewrite size_behead; case: (size c) h => [|[]].
Qed.

(** ** C89: distributions with one value per row *)
(** A distribution whose pdf (logpdf) of the outputs is one number per row, e.g. a multivariate
    one: ValueError; the likelihood and posterior values of before stay. *)
Theorem C89_multivariate (R : rcfType) D pdf logpdf (s : bprob R D) d lg v :
  (if lg then logpdf d (by_ s) else pdf d (by_ s)) = Ok (P1 v) ->
  let r := set_likelihood pdf logpdf s d lg in
  [/\ r.2 = Err ValueError, b_ll r.1 = b_ll s, b_ps r.1 = b_ps s & b_ll_dist r.1 = Some d].
Proof. by rewrite /set_likelihood /lik_values; case: lg => ->. Qed.
(** The same for a prior. *)
Theorem C89_multivariate_prior (R : rcfType) D pdf uniform (s : bprob R D) d v :
  pdf d (bX s) = Ok (P1 v) ->
  let r := set_prior pdf uniform s (Some d) in
  [/\ r.2 = Err ValueError, b_pr r.1 = b_pr s, b_ps r.1 = b_ps s & b_pr_dist r.1 = Some d].
Proof. by rewrite /set_prior => ->. Qed.

(** ** C125: an empty chain *)
Theorem C125_empty_chain (R : rcfType) (p : ilp R) ref cs : ichains p = [::] :: cs -> plot_chain p ref = Err IndexError.
Proof. by move=> e; rewrite /plot_chain e. Qed.

(** ** C134: a grid without the arrays the mesh needs *)
Theorem C134_mesh_missing (R : rcfType) mesh (ds : dset R) value stations zoom cutoff sp k :
  List.In k [:: "X"; "Y"; "triangles"]%string -> lookup ds k = None ->
  (forall k', List.In k' [:: "X"; "Y"; "triangles"]%string -> lookup ds k' = None \/ exists a, lookup ds k' = Some (VArr a)) ->
  tri_mesh_plot mesh ds value stations zoom cutoff sp = Err KeyError.
Proof.
move=> ik ek h; rewrite /tri_mesh_plot /grid_arr.
have [->|[x ex]] := h "X"%string (or_introl erefl); first by [].
have [ey|[y ey]] := h "Y"%string (or_intror (or_introl erefl)); first by rewrite ex ey.
have [et|[t et]] := h "triangles"%string (or_intror (or_intror (or_introl erefl))); first by rewrite ex ey et.
by case: ik ek => [<-|[<-|[<-|//]]]; rewrite ?ex ?ey ?et.
Qed.
