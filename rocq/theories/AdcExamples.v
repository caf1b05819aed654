(** Concrete cases for C133 and C134: three samples of two parameters, one sensor, six times, and the
    constant oracles of DensityExamples. *)
Set Warnings "-notation-overridden,-ambiguous-paths".
From Coq Require Import String.
From mathcomp Require Import all_ssreflect all_algebra.
From mathcomp Require Import zify.
From Verif Require Import Py Nd Xnum XnumProofs UtilModel DensityModel NdProofs DensityExamples UtilModel2
  StModel StProps StProps3 StProps5 DrawModel DrawProps DrawProps3 ContModel PoisModel StExModel StExProps StExExamples PoisExModel PoisExProps PoisExProps2 PoisExProps3
  PoisExExamples AdcModel AdcProps AdcProps2 AdcProps3 AdcProps4.
Set Implicit Arguments. Unset Strict Implicit. Unset Printing Implicit Defensive.
Import Order.Theory GRing.Theory Num.Theory.
Local Open Scope ring_scope.

Section AdcExamples.
Variable R : rcfType.
Notation ad n := (n%:R : R).
Definition adom : nd R := Nd [:: 2; 2]%N [:: -4%:R; 0; -4%:R; 0].
Definition asens : nd R := Nd [:: 1; 2]%N [:: 0; 0].
Definition atimes : nd R := Nd [:: 6]%N [seq i%:R | i <- iota 0 6].
Definition alam : nd R := Nd [:: 3; 2]%N [:: -1; -2%:R; -3%:R; -1; 0; -4%:R].
(** The value of sample i at time j: 6 i + j. *)
Definition adat : nd R := Nd [:: 3; 6]%N [seq i%:R | i <- iota 0 18].
Definition ameas : nd R := Nd [:: 1; 6]%N [seq i%:R | i <- iota 10 6].
Definition ast0 : st R := ST (Some adom) (Some alam) (Some [:: -1; -1]) (Some adat) (Some (NArr ameas)) None None
  (Some asens) (Some atimes) (Some 1).
Lemma a_setup : setup ast0 3 2 1 6 adat alam asens atimes.
Proof. by split; (repeat split) => //; left. Qed.
(** Dates: "a", "b", "c" are the times 0, 3, 2; "d" is 5. *)
Definition astamps (a : nd R) : res (seq R) := Ok (data a).
Definition aparse (s : string) : res R :=
  if (s =? "a")%string then Ok 0 else if (s =? "b")%string then Ok 3%:R else
  if (s =? "c")%string then Ok 2%:R else if (s =? "d")%string then Ok 5%:R else Err ValueError.

Notation estimate := (estimate (@tpdf R) tt tt (@tunif R) (tones R) (@tkde R) (@tkde_pdf R)).
Notation time_window := (adcirc_time_window (@tpdf R) tt tt (@tunif R) (tones R) (@tkde R) (@tkde_pdf R) id (@pones R) (@psvd R) (@pcurve R) (@ptri R)
  astamps aparse).

Lemma inside1 : inside (data atimes) 0 3%:R = [:: 1; 2]%N.
Proof. rewrite /inside; cbn [size data atimes iota map filter nth].
by rewrite ltxx -[1]/(1%:R) -[0]/(0%:R) !ltr_nat. Qed.
Lemma inside2 : inside (data atimes) 2%:R 5%:R = [:: 3; 4]%N.
Proof. rewrite /inside; cbn [size data atimes iota map filter nth].
by rewrite !ltr_nat. Qed.

(** The components: as PCA gives them with the oracle [pones]. *)
Definition acomp : nd R := nd2 2 (nseq 2 (nseq 2 1)).
Definition a_cv (h : R) i : seq R * seq R := let xr := stretched (wq R i.+1) adom in
  ([:: (nth (0, 0) xr i).1; (nth (0, 0) xr i).2], [:: h; h]).

(** C133: a window (w.1, w.2) with the times [T], everything asked for and saved. *)
Lemma ex_window w lo hi (T : seq nat) vecs title sp cl : aparse w.1 = Ok lo -> aparse w.2 = Ok hi -> inside (data atimes) lo hi = T -> size T = 2%N ->
  exists P P' : dprob R (tab R), [/\ time_window (AST ast0 vecs) w "pca" 2 50 None title sp (FigNames [:: "all"]%string) cl =
    (AST ast0 (Some acomp),
     ([:: window_fig (omap (fun t => (t, Posz 2, Fin 1)) title) sp cl "pca_vecs_2_2" (vector_axes atimes ameas adat acomp T 3 2);
          window_fig (omap (fun t => (t, Posz 2, Fin 1)) title) sp cl "updated_dist_2_2"
            [:: dist_marks (a_cv 1 0) (a_cv 2%:R 0) (-1) (-1); dist_marks (a_cv 1 1) (a_cv 2%:R 1) (-2%:R) (-1)];
          window_fig (omap (fun t => (t, Posz 2, Fin 1)) title) sp cl "qoi_{num_components}_{ndata}"
            [:: learned_axes (dX P) (dy P) 0; learned_axes (dX P) (dy P) 1]], Ok P')),
    rows (dX P) = [:: [:: -1; -2%:R]; [:: -3%:R; -1]; [:: 0; -4%:R]], estimate P' = (P', Ok [:: -1; -2%:R]) &
    widened (wq R 2) adom (ddom P')].
Proof.
move=> ea eb eT sT.
have T0 : T <> [::] by case: (T) sT.
have c1 : Nd.shape (acomp) = [:: 2%N; size T] by rewrite sT.
have ec : pones (nd2 (size T) [seq [seq (nth 0 (data ameas) j - ent adat i j) / 1 | j <- T] | i <- iota 0 3]) (Posz 2) = Ok acomp.
  by rewrite /pones sT.
have := @C133_pca_run R (tab R) unit unit (@tpdf R) tt tt (@tunif R) (tones R) (@tkde R) (@tkde_pdf R) id (@pones R) (@psvd R)
  (@pcurve R) (@ptri R) astamps aparse (AST ast0 vecs) 3 2 6 adat alam asens atimes (data atimes) adom 1 ameas w lo hi 2 acomp 50 None title
  sp (FigNames [:: "all"]%string) cl a_setup erefl erefl erefl erefl erefl erefl isT erefl erefl ea eb.
rewrite eT => /(_ T0 ec erefl c1 isT) [P [[tm _ eP] [rX sX] [eD eW] _ h]].
have [f1 f2 f3 f4 f5] := fresh eP.
have d2 : dim (ddom P) 1 = 2%N by rewrite eD.
have [P1 [em er ew ee ed]] := estimateE f1 f2 f3 f4 sX d2 eW.
rewrite rX in em.
have h5' : xvbop (@xmul R) (nseq 3 (Fin 1)) (d_w P1) = Ok (nseq 3 (Fin 1)) by rewrite ew /xvbop /= mulr1.
have h6' : forall i, (i < 2)%N -> let xr := stretched (wq R i.+1) (ddom P) in
     pcurve "pdf" (tones R) xr i = Ok (a_cv 1 i) /\ pcurve "kde" (tones R) xr i = Ok (a_cv 2%:R i) by rewrite eD.
have [P' [h1 h2 h3 h4]] := h P1 [:: -1; -2%:R] (Fin 1) [:: -1; -1] (tones R) (nseq 3 (Fin 1)) (nseq 3 (Fin 1)) (tones R) (a_cv 1) (a_cv 2%:R)
  em erefl ee (And3 erefl isT isT) (And4 ed er h5' erefl) h6'.
exists P, P'; split=> //.
by rewrite h1 sT.
Qed.

Example C133_met : exists P P' : dprob R (tab R), [/\ time_window (AST ast0 None) ("a", "b")%string "pca" 2 50 None (Some "W"%string) (Some "out"%string) (FigNames [:: "all"]%string) true =
    (AST ast0 (Some acomp),
     ([:: AFig (Some ("W"%string, Posz 2, Fin 1)) (vector_axes atimes ameas adat acomp [:: 1; 2]%N 3 2) (Some "out/pca_vecs_2_2"%string) true;
          AFig (Some ("W"%string, Posz 2, Fin 1))
            [:: dist_marks (a_cv 1 0) (a_cv 2%:R 0) (-1) (-1); dist_marks (a_cv 1 1) (a_cv 2%:R 1) (-2%:R) (-1)]
            (Some "out/updated_dist_2_2"%string) true;
          AFig (Some ("W"%string, Posz 2, Fin 1)) [:: learned_axes (dX P) (dy P) 0; learned_axes (dX P) (dy P) 1]
            (Some "out/qoi_{num_components}_{ndata}"%string) true], Ok P')),
    rows (dX P) = [:: [:: -1; -2%:R]; [:: -3%:R; -1]; [:: 0; -4%:R]], estimate P' = (P', Ok [:: -1; -2%:R]) &
    widened (wq R 2) adom (ddom P')].
Proof.
have [P [P' [e h1 h2 h3]]] := @ex_window ("a", "b")%string 0 3%:R [:: 1; 2]%N None (Some "W"%string) (Some "out"%string) true erefl erefl inside1 erefl.
by exists P, P'.
Qed.
(** What is seen in the first figure. *)
Example C133_vectors_met : vector_axes atimes ameas adat acomp [:: 1; 2]%N 3 2 =
  [:: [:: Art (OnCurrent (Points [:: 1%:R; 2%:R] [:: 11%:R; 12%:R] None)); Art (Curve [:: 1%:R; 2%:R] [:: 1%:R; 2%:R]);
          Art (Curve [:: 1%:R; 2%:R] [:: 7%:R; 8%:R]); Art (Curve [:: 1%:R; 2%:R] [:: 13%:R; 14%:R])];
      [:: Group "blue" "o" [:: 1%:R; 2%:R] [:: 1; 1]; Group "orange" "o" [:: 1%:R; 2%:R] [:: 1; 1]]].
Proof. by []. Qed.

(** C134: two windows without a common time; the files of the second replace those of the first. *)
Theorem C134_overwritten_refuted : exists w w' figs figs' P P',
  [/\ time_window (AST ast0 None) w "pca" 2 50 None None (Some "out"%string) (FigNames [:: "all"]%string) true =
        (AST ast0 (Some acomp), (figs, Ok P)),
      time_window (AST ast0 (Some acomp)) w' "pca" 2 50 None None (Some "out"%string) (FigNames [:: "all"]%string) true =
        (AST ast0 (Some acomp), (figs', Ok P')),
      [seq af_file f | f <- figs] = [:: Some "out/pca_vecs_2_2"; Some "out/updated_dist_2_2"; Some "out/qoi_{num_components}_{ndata}"]%string,
      [seq af_file f | f <- figs'] = [seq af_file f | f <- figs] & map (@af_axes R) figs <> map (@af_axes R) figs'].
Proof.
have [P [P' [e _ _ _]]] := @ex_window ("a", "b")%string 0 3%:R [:: 1; 2]%N None None (Some "out"%string) true erefl erefl inside1 erefl.
have [Q [Q' [e' _ _ _]]] := @ex_window ("c", "d")%string 2%:R 5%:R [:: 3; 4]%N (Some acomp) None (Some "out"%string) true erefl erefl inside2 erefl.
do 2 eexists; do 2 eexists; exists P', Q'; split; [exact: e | exact: e' | by [] | by [] |] => -[].
by move=> /eqP; rewrite eqr_nat.
Qed.

(** C133: without a reference value: AttributeError, and no figure. *)
Definition ast1 : st R := ST (Some adom) (Some alam) None (Some adat) (Some (NArr ameas)) None None (Some asens) (Some atimes) (Some 1).
Example C133_no_reference_met : exists a', time_window (AST ast1 None) ("a", "b")%string "pca" 2 50 None None (Some "out"%string)
  (FigNames [:: "updated_dist"]%string) true = (a', ([::], Err AttributeError)).
Proof.
have su : setup ast1 3 2 1 6 adat alam asens atimes by split; (repeat split) => //; left.
have c1 : Nd.shape acomp = [:: 2%N; size [:: 1; 2]%N] by [].
have ec : pones (nd2 2 [seq [seq (nth 0 (data ameas) j - ent adat i j) / 1 | j <- [:: 1; 2]%N] | i <- iota 0 3]) (Posz 2) = Ok acomp by [].
have := @C133_pca_run R (tab R) unit unit (@tpdf R) tt tt (@tunif R) (tones R) (@tkde R) (@tkde_pdf R) id (@pones R) (@psvd R)
  (@pcurve R) (@ptri R) astamps aparse (AST ast1 None) 3 2 6 adat alam asens atimes (data atimes) adom 1 ameas ("a", "b")%string 0 3%:R 2 acomp 50 None None
  (Some "out"%string) (FigNames [:: "updated_dist"]%string) true su erefl erefl erefl erefl erefl erefl isT erefl erefl erefl erefl.
rewrite inside1 => /(_ (fun e => ltac:(discriminate e)) ec erefl c1 isT) [P [[tm ew eP] [rX sX] [eD eW] _ _]].
have [f1 f2 f3 f4 f5] := fresh eP.
have d2 : dim (ddom P) 1 = 2%N by rewrite eD.
have [P1 [em _ _ _ _]] := estimateE f1 f2 f3 f4 sX d2 eW.
have ep : mud_problem_pca (tab R) id (@pones R) (@psvd R) (AST ast1 None) "pca" 2 (Some (MBools tm)) =
  ((mud_problem_pca (tab R) id (@pones R) (@psvd R) (AST ast1 None) "pca" 2 (Some (MBools tm))).1, Ok P).
  by rewrite -eP /mud_problem_pca.
eexists; exact: (@C133_no_reference R (tab R) unit unit (@tpdf R) tt tt (@tunif R) (tones R) (@tkde R) (@tkde_pdf R) id (@pones R) (@psvd R)
  (@pcurve R) (@ptri R) astamps aparse (AST ast1 None) _ ("a", "b")%string "pca" 2 50 None None (Some "out"%string)
  (FigNames [:: "updated_dist"]%string) true tm P P1 _ [::] ew ep em erefl erefl isT).
Qed.

(** C133: an open window without times: from one time to the next. *)
Example C133_empty_met figs : time_window (AST ast0 None) ("c", "b")%string "pca" 2 50 None None (Some "out"%string) figs true =
  (AST ast0 None, ([::], Err ValueError)).
Proof.
apply: (@C133_empty R (tab R) unit unit (@tpdf R) tt tt (@tunif R) (tones R) (@tkde R) (@tkde_pdf R) id (@pones R) (@psvd R)
  (@pcurve R) (@ptri R) astamps aparse (AST ast0 None) 3 2 1 6 adat alam asens atimes (data atimes) ("c", "b")%string 2%:R 3%:R
  "pca" 2 50 None None (Some "out"%string) figs true a_setup); [by [] | by [] | by [] | by [] |].
by move=> x /mapP [i _ ->]; rewrite !ltr_nat; lia.
Qed.

(** C133: two sensors: the components are as long as both series, and cannot be drawn. *)
Definition adat2 : nd R := Nd [:: 2; 4]%N [seq i%:R | i <- iota 0 8].
Definition ast2 : st R := ST (Some adom) (Some (Nd [:: 2; 1]%N [:: 0; 1])) None (Some adat2) (Some (NArr (Nd [:: 2; 2]%N [seq i%:R | i <- iota 0 4]))) None None
  (Some (Nd [:: 2; 2]%N [:: 0; 0; 1; 1])) (Some (Nd [:: 2]%N [:: 0; 1])) (Some 1).
Example C133_two_sensors_met : pca_vector_plot (AST ast2 (Some (nd2 4 [:: [:: 1; 1; 1; 1]]))) [:: true; true] 50 = Err ValueError.
Proof.
have su : setup ast2 2 1 2 2 adat2 (Nd [:: 2; 1]%N [:: 0; 1]) (Nd [:: 2; 2]%N [:: 0; 0; 1; 1]) (Nd [:: 2]%N [:: 0; 1]).
  by split; (repeat split) => //; left.
by have -> := @C133_vectors R (AST ast2 (Some (nd2 4 [:: [:: 1; 1; 1; 1]]))) 2 1 2 2 adat2 _ _ _ _ [:: true; true] [:: 0; 1]%N 50 _ 1 4
  su erefl isT erefl erefl isT erefl erefl erefl.
Qed.

(** C134: the full series with two windows and their numbers. *)
Example C134_ts_met : adcirc_ts_plot aparse ast0 [:: ("a", "b"); ("c", "d")]%string None (Some [:: ("b", 7%:R); ("c", 8%:R)]%string) (Some "out"%string) =
  Ok (full_series atimes ameas adat 6 3 ++
      [:: Edge "--" 0; Edge "--" 3%:R; WindowLabel 1 3%:R 7%:R; Edge ":" 2%:R; Edge ":" 5%:R; WindowLabel 2 2%:R 8%:R], Some "out/adcirc_full_ts"%string).
Proof.
rewrite (@C134_ts_plot R aparse ast0 3 2 1 6 adat alam asens atimes ameas [:: ("a", "b"); ("c", "d")]%string [:: (0, 3%:R); (2%:R, 5%:R)] None
  _ (Some [:: (3%:R, 7%:R); (2%:R, 8%:R)]) (Some "out"%string) a_setup) //.
- by case=> [|[|]].
- by split=> //; case=> [|[|]].
Qed.
(** C134: asked for one array of the grid, it draws another. *)
Definition agrid : dset R :=
  [:: ("X", VArr (Nd [:: 3]%N [:: 0; 1; 0])); ("Y", VArr (Nd [:: 3]%N [:: 0; 0; 1])); ("triangles", VArr (Nd [:: 1; 3]%N [:: 0; 1; 2%:R]));
      ("XEL", VArr (Nd [:: 2]%N [:: 5%:R; 6%:R])); ("YEL", VArr (Nd [:: 2]%N [:: 7%:R; 8%:R]));
      ("DP", VArr (Nd [:: 3]%N [:: 1; 20%:R; 3%:R])); ("wind_speed_mult_0", VArr (Nd [:: 3]%N [:: 1; 2%:R; 3%:R]));
      ("roughness", VArr (Nd [:: 3]%N [:: 4%:R; 5%:R; 6%:R]))]%string.
Theorem C134_value_refuted : tri_mesh_plot (fun _ _ _ => Ok tt) agrid "roughness" (Some [:: Posz 0; Negz 0]) None (-10%:R) None =
  Ok (MeshFig [:: 1; 2%:R; 3%:R] "Wind Speed Multiplier" None None [:: (0%N, 5%:R, 7%:R); (1%N, 6%:R, 8%:R)] None).
Proof.
rewrite (@C134_mesh R (fun _ _ _ => Ok tt) agrid "roughness" (Some [:: Posz 0; Negz 0]) None (-10%:R) None _ _ _ (Nd [:: 2]%N [:: 5%:R; 6%:R]) (Nd [:: 2]%N [:: 7%:R; 8%:R]) [:: 1; 2%:R; 3%:R]
  "Wind Speed Multiplier"%string 2 [:: 0; 1]%N erefl erefl erefl erefl) //.
by split=> //; split=> //; case=> [|[|]] // _; [by split=> //; left | by split=> //; right].
Qed.
Example C134_depth_met : tri_mesh_plot (fun _ _ _ => Ok tt) agrid "DP" None (Some ((1, 2%:R), (3%:R, 4%:R))) (-10%:R) (Some ""%string) =
  Ok (MeshFig [:: -1; -10%:R; -3%:R] "Bathymetry (m)" (Some (1 - 2%:R, 1 + 2%:R)) (Some (3%:R - 4%:R, 3%:R + 4%:R)) [::] (Some "si-DP"%string)).
Proof.
rewrite (@C134_mesh R (fun _ _ _ => Ok tt) agrid "DP" None (Some ((1, 2%:R), (3%:R, 4%:R))) (-10%:R) (Some ""%string) _ _ _ (arr0 R) (arr0 R) [:: -1; -10%:R; -3%:R]
  "Bathymetry (m)"%string 0 [::] erefl erefl erefl erefl) //.
rewrite /shown /=; congr (Some (_, _)); rewrite !maxEle !ler_opp2 ?ler_nat /=.
by rewrite (ler_nat R 1 10).
Qed.
End AdcExamples.
