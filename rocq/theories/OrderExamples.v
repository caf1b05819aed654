(** Concrete cases for C151. *)
Set Warnings "-notation-overridden,-ambiguous-paths".
From mathcomp Require Import all_ssreflect all_algebra.
From mathcomp.algebra_tactics Require Import ring.
From Verif Require Import Py Nd Xnum XnumProofs UtilModel DensityModel NdProofs DensityProps2 DensityProps3 BayesModel OrderProps OrderProps2.
Set Implicit Arguments. Unset Strict Implicit. Unset Printing Implicit Defensive.
Import Order.Theory GRing.Theory Num.Theory.
Local Open Scope ring_scope.

Section Ex.
Variable R : rcfType.
Notation nd := (nd R).
Notation xnum := (xnum R).
(** A distribution is a number c: its pdf adds c to every entry; the kernel density estimate of an
    array is the sum of its entries and of the weights, its value at a row that plus the first entry. *)
Definition epdf (d : R) (_ : unit) (A : nd) : res (pdfval xnum) := Ok (P2 [seq [seq Fin (x + d) | x <- r] | r <- rows A]).
Definition wval (w : seq xnum) : R := if xsum w is Fin z then z else 0.
Definition ekde (A : nd) (_ : unit) (w : seq xnum) : res R := Ok (\sum_(r <- rows A) \sum_(x <- r) x + wval w).
Definition ekp (k : R) (A : nd) : res (seq xnum) := Ok [seq Fin (k + head 0 r) | r <- rows A].
Definition eunif (_ _ : seq R) : R := 1.

(** C151: the hypothesis about the distributions holds for these, for every order of any number of
    samples. *)
Example order_free_met n sh : perm_eq sh (iota 0 n) -> order_free epdf ekde ekp n sh.
Proof.
move=> h; split.
- by move=> d kw A hA; rewrite /epdf (rows_prows h hA) /= (pick_map sh).
- move=> d kw A v hA [<-]; have [wf n2 d0] := hA; split; first by rewrite size_map size_rows.
  by rewrite all_map; apply: sub_all (all_size_rows wf n2) => r /=; rewrite size_map.
- move=> A bw w hA sw; have [wf n2 d0] := hA; rewrite /ekde (rows_prows h hA); congr (Ok (_ + _)).
    by apply: perm_big; apply: (pick_perm h); rewrite size_rows.
  have -> // : wval (pick sh w) = wval w.
  by rewrite /wval /xsum (pickE h NaN sw) (foldr_perm _ h) -{2}(mkseq_nth NaN w) /mkseq sw.
- by move=> k A hA; rewrite /ekp (rows_prows h hA) /= (pick_map sh).
by move=> k A v [wf n2 d0] [<-]; rewrite size_map size_rows.
Qed.

Definition X3 : nd := Nd [:: 3%N; 1%N] [:: 1; 2%:R; 4%:R].
Definition y3 : nd := Nd [:: 3%N; 2%N] [:: 1; 2%:R; 4%:R; 5%:R; 6%:R; 7%:R].
Definition w3 : nd := Nd [:: 3%N] [:: 1; 2%:R; 3%:R].
Definition sh3 : seq nat := [:: 2%N; 0%N; 1%N].
Lemma sh3_perm : perm_eq sh3 (iota 0 3). Proof. by []. Qed.
Lemma X3_rows : n_rows 3 X3. Proof. by []. Qed.
Lemma y3_rows : n_rows 3 y3. Proof. by []. Qed.
Lemma w3_for : weights_for 3 (Some w3). Proof. by split=> //; left. Qed.
Example X3_moved : prows sh3 X3 = Nd [:: 3%N; 1%N] [:: 4%:R; 1; 2%:R] /\ pcols sh3 w3 = Nd [:: 3%N] [:: 3%:R; 1; 2%:R].
Proof. by []. Qed.

(** C151: a problem with weights, then an observed distribution, new weights in two layers, a fit,
    the estimate; the reordered problem goes through the same. *)
Definition w6 : nd := Nd [:: 2%N; 3%N] [:: 1; 2%:R; 3%:R; 4%:R; 5%:R; 6%:R].
Definition calls : seq (dop R R unit unit) :=
  [:: OObserved R unit unit (Some 2%:R); OWeights R unit unit (Some w6) true; OFit (PA None tt (Some w3) tt); OMud R R unit unit; ORatio R R unit unit].
Lemma calls_for : List.Forall (call_for 3 2) calls.
Proof.
have h6 : weights_for 3 (Some w6) by split=> //; right.
by repeat (constructor; first by [exact: h6 | split=> //; exact: w3_for | ]); constructor.
Qed.
Notation einit := (density_init R id).
Definition nodraw (_ : nat) (_ : dprob R R) : res unit := Ok tt.
Notation erun := (run epdf tt tt eunif (0 : R) ekde ekp id nodraw).
Example C151_history_met : exists s s',
  [/\ einit X3 y3 false None false (Some w3) false 0 = Ok s,
      einit (prows sh3 X3) (prows sh3 y3) false None false (Some (pcols sh3 w3)) false 0 = Ok s' &
      erun s' (map (reorder_call sh3) calls) = reorder sh3 (erun s calls)].
Proof.
have [e g] := @C151_constructor R R id 3 2 sh3 sh3_perm X3 y3 false None false (Some w3) false 0 X3_rows y3_rows erefl w3_for.
move: e g; case E : (einit X3 y3 false None false (Some w3) false 0) => [s|er]; last by move: E.
move=> e g; exists s, (reorder sh3 s); split=> //.
have h : forall k (t : dprob R R), per_sample 3 2 t -> nodraw k (reorder sh3 t) = nodraw k t by [].
by have [] := C151_history tt tt eunif (0 : R) id sh3_perm (order_free_met sh3_perm) h (g s erefl) calls_for.
Qed.

(** C151: a fitted problem with one best sample, the second; after the reordering the third, and the
    estimate and the expected ratio are the same. *)
Definition one3 : seq xnum := [:: Fin 1; Fin 1; Fin 1].
Definition r3 : seq xnum := [:: Fin 1; Fin 3%:R; Fin 2%:R].
Definition s3 : dprob R R := DP X3 y3 (Nd [:: 1%N; 2%N] [:: 0; 4%:R]) false one3 (Some r3) (Some r3) (Some one3)
  (Some one3) (Some r3) (Some 0) (Some 0) (Some 0).
Lemma s3_good : per_sample 3 2 s3. Proof. by split=> //; split. Qed.
Notation emud := (mud_point epdf tt tt eunif (0 : R) ekde ekp).
Notation eratio := (expected_ratio epdf tt tt eunif (0 : R) ekde ekp).
Lemma s3_argmax : argmax r3 = Ok 1%N.
Proof.
have h13 : (1 : R) < 3%:R by rewrite ltr1n.
have h32 : ((3%:R : R) < 2%:R) = false by rewrite ltr_nat.
by rewrite /argmax /r3 /= h13 /= h32.
Qed.
Lemma s3_only j : best r3 j -> j = 1%N.
Proof.
rewrite /best /r3 /=; case: j => [|[|[|j]]] [//] _ h; have := h 1%N isT; rewrite /= ?lern1 ?ler_nat //.
Qed.
Example C151_estimate_met : (emud s3).2 = Ok [:: 2%:R] /\ (emud (reorder sh3 s3)).2 = Ok [:: 2%:R].
Proof.
have E : emud s3 = (s3, Ok [:: 2%:R]) by rewrite /mud_point /ensure_up /DensityModel.lift; cbn [s3 d_up sbind]; rewrite s3_argmax.
have gen s t x : per_sample 3 2 s -> emud s = (t, Ok x) -> exists u i i', [/\ d_up t = Some u, best u i /\ best u i', x = nth [::] (rows (dX s)) i,
    emud (reorder sh3 s) = (reorder sh3 t, Ok (nth [::] (rows (dX s)) i')) &
    (forall j, best u j -> j = i) -> emud (reorder sh3 s) = (reorder sh3 t, Ok x)].
  by move=> g e; have := C151_estimate tt tt eunif (0 : R) sh3_perm (order_free_met sh3_perm) g; rewrite e.
rewrite E; have [u [i [i' [[eu] [b b'] _ h1 h2]]]] := gen _ _ _ s3_good E; split=> //; rewrite h2 // => j.
by rewrite -eu => /s3_only ->; move: b; rewrite -eu => /s3_only ->.
Qed.
Example C151_ratio_met : (eratio (reorder sh3 s3)).2 = Ok (Fin 2%:R).
Proof.
rewrite (C151_ratio tt tt eunif (0 : R) sh3_perm (order_free_met sh3_perm) s3_good).
have h : (1 + (1 + (1 + 0)) : R) = 3%:R by ring.
have h3 : (3%:R : R) == 0 = false by rewrite pnatr_eq0.
rewrite /expected_ratio /ensure_up /DensityModel.lift /np_average /= h h3 /=.
have -> : 1 * 1 + (3%:R * 1 + (2%:R * 1 + 0)) = 2%:R * 3%:R :> R by ring.
by rewrite mulfK // h3.
Qed.

(** C152: row-wise densities, for every order of any number of samples. *)
Definition erow (d : R) (A : nd) : res (pdfval xnum) := Ok (P2 [seq [seq Fin (x + d) | x <- r] | r <- rows A]).
Example erow_wise n sh : perm_eq sh (iota 0 n) -> row_wise n sh erow.
Proof.
move=> h; split=> [d A hA|d A v [wf n2 d0] [<-]]; last by rewrite size_map size_rows.
by rewrite /erow (rows_prows h hA) /= (pick_map sh).
Qed.
(** A problem, its likelihood set, a fit, the estimate, the plots; and the reordered one. *)
Definition bcalls : seq (bop R) := [:: BLik 2%:R false; BPrior (Some 1); BFit R; BMap R; BPlot R true true true; BPlotObs R true true].
Definition bnodraw (_ : nat) (_ : bprob R R) : res unit := Ok tt.
Example C152_history_met : exists s s',
  [/\ bayes_init R id X3 y3 false None = Ok s, bayes_init R id (prows sh3 X3) (prows sh3 y3) false None = Ok s' &
      brun erow erow eunif id bnodraw s' bcalls = breorder sh3 (brun erow erow eunif id bnodraw s bcalls)].
Proof.
have [e g] := @C152_constructor R R id 3 sh3 sh3_perm X3 y3 false None X3_rows y3_rows.
move: e g; case E : (bayes_init R id X3 y3 false None) => [s|er]; last by move: E.
move=> e g; exists s, (breorder sh3 s); split=> //.
have h : forall k (t : bprob R R), bper_sample 3 t -> bnodraw k (breorder sh3 t) = bnodraw k t by [].
by have [] := C152_history eunif id sh3_perm (erow_wise sh3_perm) (erow_wise sh3_perm) h bcalls (g s erefl).
Qed.
(** C152: a fitted problem with one best sample. *)
Definition t3 : bprob R R := BP X3 y3 (Nd [:: 1%N; 2%N] [:: 0; 4%:R]) (Some r3) (Some one3) (Some r3) false (Some 0) (Some 0).
Lemma t3_good : bper_sample 3 t3. Proof. by split. Qed.
Example C152_estimate_met : (map_point erow eunif id t3).2 = Ok [:: 2%:R] /\ (map_point erow eunif id (breorder sh3 t3)).2 = Ok [:: 2%:R].
Proof.
have E : map_point erow eunif id t3 = (t3, Ok [:: 2%:R]) by rewrite /map_point /DensityModel.lift; cbn [t3 b_ps sbind]; rewrite s3_argmax.
have gen s t x : bper_sample 3 s -> map_point erow eunif id s = (t, Ok x) -> exists u i i', [/\ b_ps t = Some u, best u i /\ best u i', x = nth [::] (rows (bX s)) i,
    map_point erow eunif id (breorder sh3 s) = (breorder sh3 t, Ok (nth [::] (rows (bX s)) i')) &
    (forall j, best u j -> j = i) -> map_point erow eunif id (breorder sh3 s) = (breorder sh3 t, Ok x)].
  by move=> g e; have := C152_estimate eunif id sh3_perm (erow_wise sh3_perm) g; rewrite e.
rewrite E; have [u [i [i' [[eu] [b b'] _ h1 h2]]]] := gen _ _ _ t3_good E; split=> //; rewrite h2 // => j.
by rewrite -eu => /s3_only ->; move: b; rewrite -eu => /s3_only ->.
Qed.
End Ex.
