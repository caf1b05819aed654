(** A concrete case of C144 and C145, over the real numbers: mud_paper gets past figure 6, with a seed,
    without one, and its comparison figure is overwritten. *)
Set Warnings "-notation-overridden,-ambiguous-paths".
From Coq Require Import String ZArith Reals Lra.
From mathcomp Require Import all_ssreflect all_algebra.
From Verif Require Import Py Nd Xnum Spec LinAlg Dmx DmxProofs LgpModel LgpTheory LgpProofs LinProps UtilModel DensityModel BayesModel UtilModel2
  RealsStruct LinExamples DrawModel ContModel ContProps ContProps2 LinExModel LinExExamples PoisExModel SimpleModel SimpleProps SimpleExamples CompModel CompProps2 CompProps3 CompExamples
  LinFigModel LinFigProps LinFigExamples CliModel PaperModel PaperProps PaperProps2 PaperProps3 PaperProps4.
Set Implicit Arguments. Unset Strict Implicit. Unset Printing Implicit Defensive.
Import Order.Theory GRing.Theory Num.Theory.
Local Open Scope ring_scope.

(** The generator: a number; a negative seed is refused. *)
Definition pseed (q : int) : res nat := if q is Posz n then Ok n else Err ValueError.
Definition pns (r : seq RR) : res (seq (seq RR)) := Ok [:: [:: 1; - 1]].
Notation ppaper := (@mud_paper_linear RR rexp rcpi RR ckde ckde_pdf ckde_at id Rpower.ln pns nat pseed (@xrandn RR) (@xrand RR) (@diag_vals RR) (@xsvd RR)).

Lemma pns_at : pns [:: 1; 1] = Ok [:: [:: (1 : RR, - 1 : RR).1; (1 : RR, - 1 : RR).2]].
Proof. by []. Qed.
Lemma pseed21 : pseed 21 = Ok 21%N.
Proof. by []. Qed.
Lemma pkde (v : seq RR) (w : seq (xnum RR)) : v != [::] -> size w = size v ->
  exists k f, ckde (Nd [:: size v; 1%N] v) tt w = Ok k /\ estimates ckde_at k f.
Proof.
by move=> _ _; exists (last 0 v), (fun x => x ^+ 2 + last 0 v); split; [|exact: c_estimates].
Qed.
Lemma pkde_pdf (k : RR) n (v : seq RR) : exists2 pr, ckde_pdf k (Nd [:: n; 1%N] v) = Ok pr & size pr = n.
Proof. by exists (nseq n (Fin 1)); [|rewrite size_nseq]. Qed.
Lemma ppaper_total sp seed g g0 : seeded pseed seed g = Ok g0 -> exists g' fs, ppaper "/home"%string sp seed g = (g', (fs, Ok tt)).
Proof.
move=> hs.
exact: (@C144_total RR rexp rcpi RR ckde ckde_pdf ckde_at id Rpower.ln pns nat pseed (@xrandn RR) (@xrand RR) (@diag_vals RR) (@xsvd RR)
  (@xrand_size RR) (@xrand_unit RR) (@xsvd_size RR) rcpi_pos rexp_pos rexp_incr rexp_add pkde pkde_pdf "/home"%string sp seed g g0 21%N (1, -1) hs pseed21 pns_at).
Qed.
(** C144: with the default directory, twice. *)
Example C144_met g : exists g' fs, ppaper "/home"%string (Some "."%string) None g = (g', (fs, Ok tt)) /\
  nth None [seq pic_file f | f <- fs] 13 = Some "figures/map_compare_contour.png"%string.
Proof.
have [g' [fs e]] := @ppaper_total (Some "."%string) None g g erefl; exists g', fs; split; first exact: e.
by have -> := C144_files e.
Qed.
(** ... with a seed, in the directory made when there is no save_path. *)
Example C144_seed_met g : exists g' fs, ppaper "/home"%string None (Some (Posz 7)) g = (g', (fs, Ok tt)) /\
  nth None [seq pic_file f | f <- fs] 0 = Some "/home/mud_paper/figures/bip-vs-sip-1.png"%string.
Proof.
have [g' [fs e]] := @ppaper_total None (Some (Posz 7)) g 7%N erefl; exists g', fs; split; first exact: e.
by have -> := C144_files e.
Qed.
Example C144_bad_seed_met g : ppaper "/home"%string None (Some (Negz 0)) g = (g, ([::], Err ValueError)).
Proof. by apply: C144_bad_seed. Qed.
(** C145: the draws of two passes: 3 uniform numbers, then 3 uniform and 2 normal ones. *)
Example C145_draws_met : before_pass (@xrandn RR) (@xrand RR) 3 [:: Posz 1; Posz 2] 0%N 2 = (xrandn RR 2 (xrand RR 3 (xrand RR 3 0%N).2).2).2.
Proof. by []. Qed.
