(** Concrete cases for C148: the data of CliExamples, three windows with two, one and three times. *)
Set Warnings "-notation-overridden,-ambiguous-paths".
From Coq Require Import String ZArith.
From mathcomp Require Import all_ssreflect all_algebra.
From mathcomp Require Import zify.
From Verif Require Import Py Nd Xnum XnumProofs UtilModel DensityModel NdProofs DensityExamples UtilModel2
  StModel StProps StProps3 StProps5 DrawModel DrawProps DrawProps3 ContModel PoisModel StExModel StExProps StExExamples PoisExModel PoisExProps PoisExProps2 PoisExProps3
  PoisExExamples AdcModel AdcProps AdcProps2 AdcProps3 AdcProps4 AdcExamples CliModel CliProps CliProps2 CliProps3 CliExamples AllModel AllProps.
Set Implicit Arguments. Unset Strict Implicit. Unset Printing Implicit Defensive.
Import Order.Theory GRing.Theory Num.Theory.
Local Open Scope ring_scope.

Section AllExamples.
Variable R : rcfType.

(** The dates of the paper as numbers: (0, 3), (2, 4), (1, 5); every label at 0. *)
Definition dparse (s : string) : res R :=
  Ok (if (s =? "2018-01-11 07:00:00")%string then 3%:R else if (s =? "2018-01-04 11:00:00")%string then 2%:R else
      if (s =? "2018-01-04 14:00:00")%string then 4%:R else if (s =? "2018-01-07 00:00:00")%string then 1%:R else
      if (s =? "2018-01-09 00:00:00")%string then 5%:R else 0).
Definition dmeas : nd R := noisy_col [seq i%:R | i <- iota 10 6] (gdraw R 6 21).1.
Definition dst : st R := ST (Some (adom R)) (Some (alam R)) (Some [:: -1; -1]) (Some (adat R)) (Some (NArr dmeas))
  (Some (NArr (Nd [:: 6; 1]%N [seq i%:R | i <- iota 10 6]))) (Some "u"%string) (Some (default_sensors R)) (Some (atimes R)) (Some (5%:R / 100%:R)).
Lemma d_load g : load_adcirc_prob greseed (@gdraw R) (Ok (cds R)) (5%:R / 100%:R) (Some (Posz 21)) (Nd [:: 1; 2]%N [:: 0; 0]) g = (27%N, Ok (cds R, dst)).
Proof.
rewrite (@C122_adcirc_loads R _ greseed (@gdraw R) (@size_gdraw R) (cds R) (5%:R / 100%:R) (Some (Posz 21)) g 21%N 3 2 1 6 (adom R) _ (atimes R) (nd1 [:: -1; -1])
  (Nd [:: 6]%N [seq i%:R | i <- iota 10 6]) (alam R) (adat R)) //.
by case=> [|[|//]] _; rewrite /ent /= oppr_le0 ler01 andbT ler_opp2 (ler_nat R 1 4).
Qed.
Lemma d_setup : setup dst 3 2 1 6 (adat R) (alam R) (default_sensors R) (atimes R).
Proof. by split; (repeat split) => //; left. Qed.

Notation alone := (figure_alone (@tpdf R) tt tt (@tunif R) (tones R) (@tkde R) (@tkde_pdf R) id (@pones R) (@psvd R) (@pcurve R) (@ptri R)
  (@astamps R) dparse).
Notation figs_of := (adcirc_figs (@tpdf R) tt tt (@tunif R) (tones R) (@tkde R) (@tkde_pdf R) id (@pones R) (@psvd R) (@pcurve R) (@ptri R)
  (@astamps R) dparse (fun _ _ _ => Ok tt) (@cwind R) (@cgrid R)).
Notation adcirc := (paper_adcirc (@tpdf R) tt tt (@tunif R) (tones R) (@tkde R) (@tkde_pdf R) id (@pones R) (@psvd R) greseed (@gdraw R) (@pcurve R) (@ptri R)
  (@astamps R) dparse (fun _ _ _ => Ok tt) (@cwind R) (@cgrid R)).

Lemma d_window dir w lo hi (T : seq nat) (q : nat) title yl : dparse w.1 = Ok lo -> dparse w.2 = Ok hi -> inside (data (atimes R)) lo hi = T -> T <> [::] ->
  (q <= 2)%N -> ylims_ok yl 2 -> exists f, alone dst dir w (Posz q) title yl = Ok f.
Proof.
move=> ea eb eT T0 hq hy.
pose c : nd R := nd2 (size T) (nseq q (nseq (size T) 1)).
have cw : nd_wf c.
  rewrite /nd_wf /c /=; elim: (q) => [|k ih] //=; by rewrite size_cat size_nseq (eqP ih) /prodn /= !muln1 mulSn.
have c1 : Nd.shape c = [:: q; size T] by rewrite /c /= size_nseq.
have ec : pones (nd2 (size T) [seq [seq (nth 0 (data dmeas) j - ent (adat R) i j) / (5%:R / 100%:R) | j <- T] | i <- iota 0 3]) (Posz q) = Ok c by [].
have := @C133_pca_run R (tab R) unit unit (@tpdf R) tt tt (@tunif R) (tones R) (@tkde R) (@tkde_pdf R) id (@pones R) (@psvd R)
  (@pcurve R) (@ptri R) (@astamps R) dparse (AST dst None) 3 2 6 (adat R) (alam R) (default_sensors R) (atimes R) (data (atimes R)) (adom R) (5%:R / 100%:R) dmeas w lo hi q c 50 yl (Some title)
  (Some dir) (FigString "updated_dist") false d_setup erefl erefl erefl erefl erefl erefl isT erefl erefl ea eb.
rewrite eT => /(_ T0 ec cw c1 hq) [P [[tm _ eP] [rX sX] [eD eW] _ h]].
have [f1 f2 f3 f4 f5] := fresh eP.
have d2 : dim (ddom P) 1 = 2%N by rewrite eD.
have [P1 [em er ew ee ed]] := estimateE f1 f2 f3 f4 sX d2 eW.
rewrite rX in em.
have h5' : xvbop (@xmul R) (nseq 3 (Fin 1)) (d_w P1) = Ok (nseq 3 (Fin 1)) by rewrite ew /xvbop /= mulr1.
have h6' : forall i, (i < 2)%N -> let xr := stretched (wq R i.+1) (ddom P) in
     pcurve "pdf" (tones R) xr i = Ok (a_cv 1 i) /\ pcurve "kde" (tones R) xr i = Ok (a_cv 2%:R i) by rewrite eD.
have [P' [h1 _ _ _]] := h P1 [:: -1; -2%:R] (Fin 1) [:: -1; -1] (tones R) (nseq 3 (Fin 1)) (nseq 3 (Fin 1)) (tones R) (a_cv 1) (a_cv 2%:R)
  em erefl ee (And3 erefl isT hy) (And4 ed er h5' erefl) h6'.
by eexists; rewrite /figure_alone h1.
Qed.

Lemma in1 : inside (data (atimes R)) 0 3%:R = [:: 1; 2]%N. Proof. exact: inside1. Qed.
Lemma in2 : inside (data (atimes R)) 2%:R 4%:R = [:: 3]%N.
Proof. by rewrite /inside; cbn [size data atimes iota map filter nth]; rewrite !ltr_nat. Qed.
Lemma in3 : inside (data (atimes R)) 1%:R 5%:R = [:: 2; 3; 4]%N.
Proof. by rewrite /inside; cbn [size data atimes iota map filter nth]; rewrite !ltr_nat. Qed.

(** All nine figures are drawn. *)
Lemma d_steps dir : exists fs, figs_of (cds R) dst dir = (fs, Ok tt).
Proof.
have [f1 e1] := @d_window dir ("2018-01-11 01:00:00", "2018-01-11 07:00:00")%string _ _ _ 1 "$T_1$"%string (Some [:: 65%:R; 1600%:R]) erefl erefl in1 (fun e => ltac:(discriminate e)) isT isT.
have [f2 e2] := @d_window dir ("2018-01-11 01:00:00", "2018-01-11 07:00:00")%string _ _ _ 2 "$T_1$"%string None erefl erefl in1 (fun e => ltac:(discriminate e)) isT isT.
have [f3 e3] := @d_window dir ("2018-01-04 11:00:00", "2018-01-04 14:00:00")%string _ _ _ 1 "$T_2$"%string (Some [:: 40%:R; 4000%:R]) erefl erefl in2 (fun e => ltac:(discriminate e)) isT isT.
have [f4 e4] := @d_window dir ("2018-01-04 11:00:00", "2018-01-04 14:00:00")%string _ _ _ 2 "$T_2$"%string (Some [:: 35%:R; 10%:R ^+ 4]) erefl erefl in2 (fun e => ltac:(discriminate e)) isT isT.
have [f5 e5] := @d_window dir ("2018-01-07 00:00:00", "2018-01-09 00:00:00")%string _ _ _ 1 "$T_3$"%string (Some [:: 30%:R; 3000%:R]) erefl erefl in3 (fun e => ltac:(discriminate e)) isT isT.
have [f6 e6] := @d_window dir ("2018-01-07 00:00:00", "2018-01-09 00:00:00")%string _ _ _ 2 "$T_3$"%string (Some [:: 160%:R; 14%:R * 10%:R ^+ 3]) erefl erefl in3 (fun e => ltac:(discriminate e)) isT isT.
have ts := @C134_ts_plot R dparse dst 3 2 1 6 (adat R) (alam R) (default_sensors R) (atimes R) dmeas
  [:: ("2018-01-11 01:00:00", "2018-01-11 07:00:00"); ("2018-01-04 11:00:00", "2018-01-04 14:00:00"); ("2018-01-07 00:00:00", "2018-01-09 00:00:00")]%string
  [:: (0, 3%:R); (2%:R, 4%:R); (1%:R, 5%:R)] (Some ([:: 0; 1], [:: 2%:R; 3%:R]))
  (Some [:: ("2018-01-10 14:00:00"%string, 18%:R / 10%:R); ("2018-01-04 00:00:00"%string, 18%:R / 10%:R); ("2018-01-07 20:00:00"%string, 18%:R / 10%:R)])
  (Some [:: (0, 18%:R / 10%:R); (0, 18%:R / 10%:R); (0, 18%:R / 10%:R)]) (Some dir) d_setup erefl isT isT erefl erefl.
have m v (vv : seq R) lab zoom : shown (agrid R) v (-10%:R) = Some (vv, lab) -> size vv = 3%N -> exists f, tri_mesh_plot (fun _ _ _ => Ok tt) (agrid R) v (Some [:: Posz 0]) (Some zoom) (-10%:R) (Some dir) = Ok f.
  move=> hs hz; eexists.
  apply: (@C134_mesh R (fun _ _ _ => Ok tt) (agrid R) v (Some [:: Posz 0]) (Some zoom) (-10%:R) (Some dir) (Nd [:: 3]%N [:: 0; 1; 0]) (Nd [:: 3]%N [:: 0; 0; 1])
    (Nd [:: 1; 3]%N [:: 0; 1; 2%:R]) (Nd [:: 2]%N [:: 5%:R; 6%:R]) (Nd [:: 2]%N [:: 7%:R; 8%:R]) vv lab 2 [:: 0%N]) => //.
  by split=> //; split=> //; case=> // _; rewrite /meant /=; lia.
have [g1 k1] := @m "wind_speed_mult_0"%string _ _ ((- (1812%:R / 25%:R), 47%:R / 100%:R), (407%:R / 10%:R, 32%:R / 100%:R)) erefl erefl.
have [g2 k2] := @m "DP"%string _ _ ((- (145%:R / 2%:R), 1 / 10%:R), (817%:R / 20%:R, 4%:R / 100%:R)) erefl erefl.
have [g3 k3] : exists f, adcirc_ts_plot dparse dst [:: ("2018-01-11 01:00:00", "2018-01-11 07:00:00"); ("2018-01-04 11:00:00", "2018-01-04 14:00:00"); ("2018-01-07 00:00:00", "2018-01-09 00:00:00")]%string
   (Some ([:: 0; 1], [:: 2%:R; 3%:R])) (Some [:: ("2018-01-10 14:00:00"%string, 18%:R / 10%:R); ("2018-01-04 00:00:00"%string, 18%:R / 10%:R); ("2018-01-07 20:00:00"%string, 18%:R / 10%:R)]) (Some dir) = Ok f.
  eexists; apply: ts => //; [by do 3 case=> // | by split=> //; do 3 case=> //].
exists [:: AMesh g1; AMesh g2; ATs g3.1 g3.2; AWin f1; AWin f2; AWin f3; AWin f4; AWin f5; AWin f6].
rewrite C148_figures; apply/until_all; rewrite /paper_steps.
by rewrite -[cgrid _]/(Ok (agrid R)) -[cwind _]/(Ok ([:: 0; 1], [:: 2%:R; 3%:R])); cbn [rbind]; rewrite k1 k2 k3 e1 e2 e3 e4 e5 e6.
Qed.

Example C148_met g : exists disk' fs,
  [/\ adcirc "out" (Ok (cds R)) [::] g = ((27%N, disk'), (fs, Ok tt)),
      get disk' "out/data/adcirc-si.pkl" = Some (cds R),
      [seq any_file f | f <- fs] = [seq Some x | x <- [:: "out/figures/si-wind_speed_mult_0"; "out/figures/si-DP"; "out/figures/adcirc_full_ts";
         "out/figures/updated_dist_1_2"; "out/figures/updated_dist_2_2"; "out/figures/updated_dist_1_1"; "out/figures/updated_dist_2_1";
         "out/figures/updated_dist_1_3"; "out/figures/updated_dist_2_3"]%string] & List.NoDup [seq any_file f | f <- fs]].
Proof.
have [disk' [e1 e2 _]] := @C148_data R (tab R) unit unit (@tpdf R) tt tt (@tunif R) (tones R) (@tkde R) (@tkde_pdf R) id (@pones R) (@psvd R) nat greseed (@gdraw R) (@pcurve R) (@ptri R)
  (@astamps R) dparse (fun _ _ _ => Ok tt) (@cwind R) (@cgrid R) "out" (Ok (cds R)) [::] g (cds R) 27%N dst erefl (d_load g).
have [fs ef] := d_steps "out/figures".
have [ts [lo [hi [[et] [[l1] [r1]] [[l2] [r2]] [[l3] [r3]] efs]]]] := @C148_files R (tab R) unit unit (@tpdf R) tt tt (@tunif R) (tones R) (@tkde R) (@tkde_pdf R) id (@pones R) (@psvd R) (@pcurve R) (@ptri R)
  (@astamps R) dparse (fun _ _ _ => Ok tt) (@cwind R) (@cgrid R) (cds R) dst "out/figures" fs (atimes R) ef erefl.
cbv beta zeta in efs; rewrite -et -l1 -l2 -l3 -r1 -r2 -r3 in efs.
have c (a b : R) T : inside (data (atimes R)) a b = T -> count (fun x => (a < x) && (x < b)) (data (atimes R)) = size T.
  move=> <-; rewrite /inside size_filter.
  rewrite {1}[data (atimes R)](_ : _ = [seq i%:R | i <- iota 0 6]) // count_map; apply: eq_in_count => i; rewrite mem_iota => hi'; rewrite /= (nth_map 0%N) ?size_iota // nth_iota.
rewrite (c _ _ _ in1) (c _ _ _ in2) (c _ _ _ in3) in efs.
exists disk', fs; split=> //.
- by rewrite e1 -[CompProps2.in_dir "out"%string "figures"%string]/("out/figures"%string) -C148_figures ef.
- rewrite efs; move: (iffRL (@C148_kept "out/figures" 2 1 3)); cbv zeta; apply=> //.
Qed.
End AllExamples.
