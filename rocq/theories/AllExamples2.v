(** Concrete cases for C138 and C149: a complete run of mud_paper over the real numbers. *)
Set Warnings "-notation-overridden,-ambiguous-paths".
From Coq Require Import String ZArith.
From mathcomp Require Import all_ssreflect all_algebra.
From mathcomp Require Import zify.
From Verif Require Import Py Nd Xnum XnumProofs UtilModel DensityModel NdProofs DensityExamples UtilModel2
  StModel StProps StProps3 StProps5 DrawModel DrawProps DrawProps3 ContModel PoisModel StExModel StExProps StExExamples PoisExModel PoisExProps PoisExProps2 PoisExProps3
  PoisExExamples AdcModel AdcProps AdcProps2 AdcProps3 AdcProps4 AdcExamples CliModel CliProps CliProps2 CliProps3 CliExamples CliProps4
  LinExModel LinExExamples SimpleModel SimpleProps SimpleExamples CompModel CompProps2 CompProps3 CompExamples LinFigModel LinFigProps LinFigExamples
  RealsStruct PaperModel PaperProps PaperProps2 PaperProps3 PaperProps4 PaperExamples AllModel AllProps AllProps2 AllProps3 AllExamples.
Set Implicit Arguments. Unset Strict Implicit. Unset Printing Implicit Defensive.
Import Order.Theory GRing.Theory Num.Theory.
Local Open Scope ring_scope.


Section Poisson.
Variable R : rcfType.
Notation pds := (pds R).
Notation estimate := (estimate (@tpdf R) tt tt (@tunif R) (tones R) (@tkde R) (@tkde_pdf R)).
Notation mud_problem := (st_mud_problem (tab R) id (@pones R) (@psvd R)).
Notation solved := (solved (@tpdf R) tt tt (@tunif R) (tones R) (@tkde R) (@tkde_pdf R) id (@pones R) (@psvd R) (@pcurve R)).
Notation learned := (learned (@tpdf R) tt tt (@tunif R) (tones R) (@tkde R) (@tkde_pdf R) id (@pones R) (@psvd R) (@ptri R)).
Notation load := (load_poisson_prob greseed (@gdraw R)).
Definition sig : R := 5%:R / 100%:R.
Definition xrp : R * R := (- (45%:R / 10%:R), 5%:R / 10%:R).

(** The problem loaded with the seed 5, whatever the generator's state. *)
Definition qs : st R := if (load (Ok pds) sig (Some 5%:Z) 0%N).2 is Ok x then x.2 else ST None None None None None None None None None None.
Lemma q_problem g sens : all (fun i => (i < 2)%N) sens -> sens <> [::] ->
  [/\ load (Ok pds) sig (Some 5%:Z) g = (7%N, Ok (pds, qs)),
      [/\ n_sensors qs = Ok 2%N, s_sens qs = Some (psens R) & s_lam qs = Some (plam R)] &
      exists P P1, [/\ learned qs sens 3 P P1 &
        solved qs sens [:: xrp; xrp] P P1 [:: -1; -2%:R] (Fin 1) (fun i => ([:: xrp.1; xrp.2], [:: 1; 1])) (fun i => ([:: xrp.1; xrp.2], [:: 2%:R; 2%:R]))]].
Proof.
move=> ha h0.
have ld g' : exists s, load (Ok pds) sig (Some 5%:Z) g' = (7%N, Ok (pds, s)).
  have [s [el _ _ _]] := @C131_problem R (tab R) id (@pones R) (@psvd R) nat greseed (@gdraw R) (@size_gdraw R) pds sig (Some 5%:Z) g' 5%N 3 2 2 _ _ _ _ _ sens (pds_data R) erefl ha.
  by exists s.
have [s [el [en es elam] _ h]] := @C131_problem R (tab R) id (@pones R) (@psvd R) nat greseed (@gdraw R) (@size_gdraw R) pds sig (Some 5%:Z) 0%N 5%N 3 2 2 _ _ _ _ _ sens (pds_data R) erefl ha.
have eq : qs = s by rewrite /qs el.
rewrite eq; split; [|split; [exact: en|exact: es|exact: elam]|].
  have [s' e'] := ld g; rewrite e'.
  suff -> : s' = s by [].
  have : (load (Ok pds) sig (Some 5%:Z) g).2 = (load (Ok pds) sig (Some 5%:Z) 0%N).2.
    by have [] := @C132_seed R nat greseed (@gdraw R) nat hsample sig sig 5%:Z (Ok pds) g 0%N s 0%N 2 en.
  by rewrite e' el => -[].
set A := nd2 _ _ in h.
have dA : dim A 1 = size sens by [].
have [||P [eP [rX sX] [eD eW] sY rY]] := h h0 _ 2%N erefl.
- by rewrite dA /nd_wf /= size_cat size_cat /= size_nseq /prodn /= muln1 addn0 mul2n addnn.
- by rewrite dA.
have [f1 f2 f3 f4 f5] := fresh eP.
have d2 : dim (ddom P) 1 = 2%N by rewrite eD.
have [P1 [em er ew ee ed]] := estimateE f1 f2 f3 f4 sX d2 eW.
exists P, P1; split.
  exists (nth [::] (rows (dX P)) 0); split=> //.
  by case=> [|[|//]] _; rewrite /ptri /ncol !size_map !size_rows /dim sX sY.
exists (nseq 3 (Fin 1)), (nseq 3 (Fin 1)), (tones R), (tones R).
split=> //; first by rewrite eD.
  by rewrite em rX.
split=> //; first by rewrite ew /xvbop /= mulr1.
by case=> [|[|]].
Qed.

Variables (solve : seq R -> R -> R -> R) (solve_gamma : R -> R -> R -> R) (u : pyv R) (rand : nat -> nat -> seq R * nat).
Notation poisson := (paper_poisson (@tpdf R) tt tt (@tunif R) (tones R) (@tkde R) (@tkde_pdf R) id (@pones R) (@psvd R)
  greseed (@gdraw R) rand hseed hsample (@pcurve R) (@ptri R) (@pclosest R) (@pfield R) solve solve_gamma u).
(** C138: the sensors drawn from the state [h], the order of the trials from the seed. *)
Example C138_run_met fen remote (disk : dict (dset R)) g h : get disk "out/data/poisson_data.pkl" = Some pds ->
  exists f7 f9, poisson fen "out" remote (Some 5%:Z) disk g h =
    ((7%N, 6%N, disk), (f7, f9, Ok ([:: "N"; "mud_pt"; "r"]%string,
      [seq [:: CInt R N; CArr [:: -1; -2%:R]; CNum (Fin 1)] | N <- [:: Posz 5; Posz 50; Posz 500]]))).
Proof.
move=> hd.
have al l : perm_eq l (iota 0 2) -> all (fun i => (i < 2)%N) l /\ l <> [::].
  by move=> pl; rewrite (perm_all _ pl); split=> // e; have := perm_size pl; rewrite e.
set l := (hsample 2 h).1.
have [al0 l0] : all (fun i => (i < 2)%N) l /\ l <> [::] by apply: al; rewrite /l /hsample /= perm_rot.
have [e0 [en es elam] [P [P1 [lP _]]]] := @q_problem 5 l al0 l0.
have [e1 _ _] := @q_problem 7 l al0 l0.
pose Q N : dprob R (tab R) := if mud_problem qs "pca" None None 2 None None (Some (MInts (map Posz (sensors_of [:: 1; 0]%N N)))) is Ok P then P
  else DP (arr0 R) (arr0 R) (arr0 R) false [::] None None None None None None None None.
have hs N : N \in [:: Posz 5; Posz 50; Posz 500] -> solved qs (sensors_of [:: 1; 0]%N N) [:: xrp; xrp] (Q N) ((estimate (Q N)).1) [:: -1; -2%:R] (Fin 1)
    (fun i => ([:: xrp.1; xrp.2], [:: 1; 1])) (fun i => ([:: xrp.1; xrp.2], [:: 2%:R; 2%:R])).
  move=> hN; have [a n0] : all (fun i => (i < 2)%N) (sensors_of [:: 1; 0]%N N) /\ sensors_of [:: 1; 0]%N N <> [::].
    by apply: al; move: hN; rewrite !inE => /orP [/eqP ->|/orP [] /eqP ->].
  have [_ _ [P' [P1' [_ hs]]]] := @q_problem 5 _ a n0.
  have [r [w [d0 [k [eP _ [_ em] _ _]]]]] := hs.
  by rewrite /Q eP em.
do 2 eexists.
apply: (@C138_paper_run R (tab R) unit unit (@tpdf R) tt tt (@tunif R) (tones R) (@tkde R) (@tkde_pdf R) id (@pones R) (@psvd R)
  nat greseed (@gdraw R) rand nat hseed hsample (@pcurve R) (@ptri R) (@pclosest R) (@pfield R) solve solve_gamma u fen "out" remote (Some 5%:Z) disk g h pds
  5%N 7%N 7%N qs qs 2 3 h.+1 6%N l [:: 1; 0]%N (psens R) (plam R) ([:: 0; 1; 0], [:: 0; 0; 1], [:: 1; 2%:R; 3%:R]) P P1
  Q (fun N => (estimate (Q N)).1) (fun _ => [:: -1; -2%:R]) (fun _ => Fin 1) (fun _ _ => ([:: xrp.1; xrp.2], [:: 1; 1]))
  (fun _ _ => ([:: xrp.1; xrp.2], [:: 2%:R; 2%:R])) hd erefl e0 en erefl _ _ erefl erefl lP e1 en erefl hs) => //.
Qed.
End Poisson.

(** ** C149 *)
Definition zsolve (l : seq RR) (x y : RR) : RR := 0.
Definition zgamma (a x y : RR) : RR := 0.
Notation all_paper := (@mud_paper RR (tab RR) unit unit (@tpdf RR) tt tt (@tunif RR) (tones RR) (@tkde RR) (@tkde_pdf RR) id (@pones RR) (@psvd RR)
  nat greseed (@gdraw RR) (@xrand RR) nat hseed hsample (@pcurve RR) (@ptri RR) (@pclosest RR) (@pfield RR) (@astamps RR) (@dparse RR) (fun _ _ _ => Ok tt)
  zsolve zgamma (VNone RR) (@cwind RR) (@cgrid RR) rexp rcpi RR ckde ckde_pdf ckde_at Rpower.ln pns (@diag_vals RR) (@xsvd RR)).
Notation all_linear := (@mud_paper_linear RR rexp rcpi RR ckde ckde_pdf ckde_at id Rpower.ln pns nat greseed (@gdraw RR) (@xrand RR) (@diag_vals RR) (@xsvd RR)).
Definition disk0 : dict (dset RR) := [:: ("out/data/poisson_data.pkl", pds RR); ("out/data/adcirc-si.pkl", cds RR)]%string.
Lemma greseed21 : greseed 21 = Ok 21%N. Proof. by []. Qed.

(** The first eighteen figures are finished whatever else there is. *)
Example C149_first_met fen sp rp ra disk g h : exists g' fs rest, [/\ all_linear ""%string (Some sp) (Some 5%:Z) g = (g', (fs, Ok tt)),
    (all_paper fen sp rp ra (Some 5%:Z) disk g h).2.1.1 = map (@ALin RR) fs ++ rest &
    [seq pic_file f | f <- fs] = [seq Some (CompProps2.in_dir (CompProps2.in_dir sp "figures"%string) n) | n <- paper_names]].
Proof.
exact: (@C149_first_figures RR (tab RR) unit unit (@tpdf RR) tt tt (@tunif RR) (tones RR) (@tkde RR) (@tkde_pdf RR) id (@pones RR) (@psvd RR)
  nat greseed (@gdraw RR) (@xrand RR) nat hseed hsample (@pcurve RR) (@ptri RR) (@pclosest RR) (@pfield RR) (@astamps RR) (@dparse RR) (fun _ _ _ => Ok tt)
  zsolve zgamma (VNone RR) (@cwind RR) (@cgrid RR) rexp rcpi RR ckde ckde_pdf ckde_at Rpower.ln pns (@diag_vals RR) (@xsvd RR)
  (@xrand_size RR) (@xrand_unit RR) (@xsvd_size RR) rcpi_pos rexp_pos rexp_incr rexp_add pkde pkde_pdf fen sp rp ra (Some 5%:Z) disk g h 5%N 21%N (1, -1) erefl greseed21 pns_at).
Qed.
Notation all_adcirc := (@paper_adcirc RR (tab RR) unit unit (@tpdf RR) tt tt (@tunif RR) (tones RR) (@tkde RR) (@tkde_pdf RR) id (@pones RR) (@psvd RR)
  nat greseed (@gdraw RR) (@pcurve RR) (@ptri RR) (@astamps RR) (@dparse RR) (fun _ _ _ => Ok tt) (@cwind RR) (@cgrid RR)).
Lemma disk0_adc : get disk0 (adcirc_file "out") = Some (cds RR). Proof. by []. Qed.
Lemma d_adcirc ra g : exists disk' A, all_adcirc "out"%string ra disk0 g = ((27%N, disk'), (A, Ok tt)) /\ size A = 9%N.
Proof.
have [disk' [e1 _ _]] := @C148_data RR (tab RR) unit unit (@tpdf RR) tt tt (@tunif RR) (tones RR) (@tkde RR) (@tkde_pdf RR) id (@pones RR) (@psvd RR) nat greseed (@gdraw RR) (@pcurve RR) (@ptri RR)
  (@astamps RR) (@dparse RR) (fun _ _ _ => Ok tt) (@cwind RR) (@cgrid RR) "out" ra disk0 g (cds RR) 27%N (dst RR) (congr1 (fun o => if o is Some d then Ok d else ra) disk0_adc) (@d_load RR g).
have [A eA] := @d_steps RR (CompProps2.in_dir "out" "figures").
exists disk', A; rewrite e1 -C148_figures eA; split=> //.
by move: eA; rewrite C148_figures => /until_all /(congr1 size); rewrite size_map.
Qed.
(** A complete run with the seed 5 and both data files in place: 32 figures and the table. *)
Example C149_met fen rp ra g h : exists disk' figs,
  all_paper fen "out"%string rp ra (Some 5%:Z) disk0 g h = ((27%N, 6%N, disk'), (figs, Some ([:: "N"; "mud_pt"; "r"]%string,
      [seq [:: CInt RR N; CArr [:: -1; -2%:R]; CNum (Fin 1)] | N <- [:: Posz 5; Posz 50; Posz 500]]), Ok tt)) /\ size figs = 32%N.
Proof.
have [g1 [fs1 [rest [e1 _ n1]]]] := @C149_first_met fen "out"%string rp ra disk0 g h.
have [f7 [f9 e7]] := @C138_run_met RR zsolve zgamma (VNone RR) (@xrand RR) fen rp disk0 g1 h erefl.
have [disk' [A [ea sA]]] := d_adcirc ra 7.
exists disk', ((map (@ALin RR) fs1 ++ map (@APois RR) f7 ++ map (@APois RR) f9) ++ A); split.
  exact: (C149_composed e1 e7 ea).
have [n7 n9] := poisson_files e7.
by rewrite !size_cat !size_map sA -(size_map (@pic_file RR)) n1 -(size_map (@pf_file RR) f7) n7 -(size_map (@pf_file RR) f9) n9 !size_map.
Qed.
