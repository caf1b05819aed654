(** Concrete cases for the SpatioTemporalProblem theorems (C56-C63, C91-C94), over any real
    closed field, and witnesses that the tempting stronger claims are false of the code. *)
Set Warnings "-notation-overridden,-ambiguous-paths".
From mathcomp Require Import all_ssreflect all_algebra.
From Coq Require Import String.
From Verif Require Import Py Nd Spec LinAlg Dmx LgpModel WmeModel LinProps WmeProps WmeProps2.
From Verif Require Import Xnum XnumProofs UtilModel DensityModel NdProofs UtilModel2 UtilProps
  StModel StProps StProps2 StProps3 StProps4 StProps5.
Set Implicit Arguments. Unset Strict Implicit. Unset Printing Implicit Defensive.
Import Order.Theory GRing.Theory Num.Theory.
Local Open Scope ring_scope.

Section StExamples.
Variable R : rcfType.
Notation nd := (nd R).
Definition rsd (k : int) : res nat := if k is Posz n then Ok n else Err ValueError.
Definition rnd (n g : nat) : seq R * nat := ([seq i%:R | i <- iota g n], (g + n)%N).
Notation run := (srun rsd rnd (st0 R, 0%N)).
Notation n_ := (fun k => k%:R : R).

(** ** A data set: two samples of two parameters, two sensors in the plane, one time *)
Definition exdom : nd := Nd [:: 2; 2]%N [:: 0; 2%:R; 0; 2%:R].
Definition exlam : nd := Nd [:: 2; 2]%N [:: 1; 0; 2%:R; 1].
Definition exse : nd := Nd [:: 2; 2]%N [:: 0; 0; 1; 1].
Definition exti : nd := Nd [:: 1]%N [:: 0].
Definition exref : nd := Nd [:: 2]%N [:: 1; 1].
Definition exdat : nd := Nd [:: 2; 2]%N [:: 0; 1; 2%:R; 1].
Definition extv : nd := Nd [:: 2]%N [:: 2%:R; 2%:R].
Definition exme : nd := Nd [:: 2]%N [:: 2%:R; 1].
Definition exds : dset R :=
  [:: ("lam", VArr exlam); ("data", VArr exdat); ("domain", VArr exdom); ("sensors", VArr exse);
      ("times", VArr exti); ("sample_dist", VStr R "u"); ("lam_ref", VArr exref);
      ("std_dev", VNum 1); ("true_vals", VArr extv); ("measurements", VArr exme)]%string.
Definition exst : st R :=
  ST (Some exdom) (Some exlam) (Some [:: 1; 1]) (Some exdat) (Some (NArr (Nd [:: 2; 1]%N (data exme))))
     (Some (NArr (Nd [:: 2; 1]%N (data extv)))) (Some "u"%string) (Some exse) (Some exti) (Some 1).

Let le02 : (0 : R) <= 2%:R. Proof. exact: ler0n. Qed.
Let le12 : (1 : R) <= 2%:R. Proof. by rewrite (ler_nat R 1 2). Qed.
Let lt12 : (1 : R) < 2%:R. Proof. by rewrite (ltr_nat R 1 2). Qed.

Example C61_hypotheses_met : load (st0 R) exds (same_names R) = (exst, Ok tt).
Proof.
rewrite (@C61_complete_load R exds "u" 2 2 2 1 exdom exse exti exref 1 extv exme exlam exdat) //.
- by left.
- by case=> [|[|//]] _ /=; rewrite ler01 le12.
Qed.
Example C59_hypotheses_met : setup exst 2 2 2 1 exdat exlam exse exti.
Proof. by split=> //; split=> //; split=> //; left. Qed.
Example C59_masks_met : [/\ picked 2 (Some (MBools [:: true; true])) = Ok [:: 0; 1]%N,
  picked 1 None = Ok [:: 0%N], picked 2 (Some (MInts [:: -1; 0])) = Ok [:: 1; 0]%N &
  picked 2 (Some (MSlice None (Some (-1)))) = Ok [:: 0%N]].
Proof. by []. Qed.
Lemma load_ok_same (ds : dset R) : foldr (fun fv P => val_ok fv.1 fv.2 /\ P) True ds ->
  load_ok ds (same_names R).
Proof.
move=> h f v; rewrite /named /same_names; case e: (lookup ds f) => [w|] // [<-].
elim: ds h e => [//|[k x] ds ih] /= [h1 h2].
case ek: (f =? k)%string; last exact: ih.
by move/String.eqb_eq: ek => -> [<-].
Qed.
Example C56_history_met : hist_ok [:: SDomain exdom; SLam exlam; SLref exref; SSens (Some exse);
  STimes (Some exti); SData exdat; SMeas exme; SLoad exds (same_names R)].
Proof.
do 7 (split; first by []); split=> //; apply: load_ok_same.
by do 10 (split; first by []).
Qed.

(** ** C56 *)
(** Samples set after the domain may lie outside of it. *)
Theorem C56_samples_inside_refuted : exists h lam d, [/\ hist_ok h,
  s_lam (run h).1 = Some lam, s_dom (run h).1 = Some d & ~ inside d lam].
Proof.
pose d : nd := Nd [:: 1; 2]%N [:: 0; 1].
exists [:: SDomain d; SLam (nd1 [:: 2%:R])], (Nd [:: 1; 1]%N [:: 2%:R]), d; split=> //.
move=> [_ /(_ 0%N 0%N isT isT)]; rewrite /ent [nth _ _ _]/=.
by case/andP=> _; rewrite [nth 0 _ _]/= [X in _ <= X]/= leNgt lt12.
Qed.
(** One interval is accepted as the domain of two parameters, if it covers both. *)
Theorem C56_one_interval_refuted : exists h lam d, [/\ hist_ok h,
  s_lam (run h).1 = Some lam, s_dom (run h).1 = Some d, dim lam 1 = 2%N & dim d 0 = 1%N].
Proof.
pose a : nd := Nd [:: 1; 2]%N [:: 0; 2%:R].
pose s1 := with_lam (with_dist (with_dom (st0 R) exdom) "u") exlam.
have E : set_domain s1 a = (with_dom s1 a, Ok tt).
  have [[_ [_ ->]]|[[]]] := @C56_domain_accepts_iff R s1 a exlam exdom erefl erefl erefl isT isT; first by [].
  split=> //; move=> [|[|//]] [|[|//]] [|//] _ _ _ _; rewrite /ent /= ?lexx ?le02 ?ler01 ?le12 //.
have E2 : (run [:: SDomain exdom; SLam exlam; SDomain a]).1 = with_dom s1 a.
  rewrite /srun -cat1s -[X in _ ++ X]cat1s catA foldl_cat [foldl _ _ ([:: _] ++ _)]/=.
  by rewrite [foldl _ _ _]/= -/s1 E.
by exists [:: SDomain exdom; SLam exlam; SDomain a], exlam, a; rewrite E2.
Qed.

(** ** C57 *)
(** A reference may be shorter than the number of parameters, and a later domain need not
    contain it. *)
Theorem C57_shorter_reference_refuted : exists h d x,
  [/\ s_dom (run h).1 = Some d, s_lref (run h).1 = Some x, dim d 0 = 2%N & size x = 1%N].
Proof.
exists [:: SDomain exdom; SLref (nd1 [:: 1])], exdom, [:: 1]; rewrite /srun /= /set_lref /=.
by rewrite ltNge ler01 ltNge le12.
Qed.
Theorem C57_stale_reference_refuted : exists h d x,
  [/\ s_dom (run h).1 = Some d, s_lref (run h).1 = Some [:: x] & x < ent d 0 0].
Proof.
pose d0 : nd := Nd [:: 1; 2]%N [:: 0; 1]; pose d1 : nd := Nd [:: 1; 2]%N [:: 2%:R; 3%:R].
exists [:: SDomain d0; SLref (nd1 [:: 1]); SDomain d1], d1, 1; rewrite /srun /= /set_lref /=.
by rewrite ltNge ler01 ltNge lexx.
Qed.

(** ** C61 *)
(** A field stored under another name is silently not read unless the usual name is also
    there. *)
Theorem C61_renaming_refuted :
  load (st0 R) [:: ("bounds"%string, VArr exdom)]
    (fun f => if (f =? "domain")%string then NName R "bounds" else NName R f) = (st0 R, Ok tt).
Proof. by []. Qed.

(** ** C62, C63, C92, C93 *)
Example C62_hypotheses_met : [/\ s_meas exst <> None, s_sd exst = Some (1 : R), (1 : R) <> 0,
  s_dom exst = Some exdom & Nd.shape exdom = [:: 2; 2]%N].
Proof. by split=> //; apply/eqP; exact: oner_neq0. Qed.
(** The value for sample 0: (2 - 0 + 1 - 1) / sqrt 2. *)
Example C62_value : wme_qoi exst exdat 1 [:: 0; 1]%N [:: 0%N] 1 2 0 = 2%:R / Num.sqrt 2%:R.
Proof.
rewrite /wme_qoi !big_cons !big_nil /meas_at /ent /=.
by rewrite !divr1 !subr0 subrr !addr0.
Qed.
(** "mud_problem's weighted mean error is that of funs.wme" is false: with two samples and two
    data points the sign differs. *)
Theorem C62_same_as_wme_refuted : exists v, wme exdat (nd1 (data exme)) (Some (1 : R)) = Ok v /\
  wme_qoi exst exdat 1 (iota 0 2) (iota 0 1) 1 2 0 <> nth 0 v 0.
Proof.
case e: (wme exdat (nd1 (data exme)) (Some (1 : R))) => [v|e'].
  exists v; split=> //; have h := C62_relation_to_wme C59_hypotheses_met erefl isT e (isT : 0 < 2)%N.
  have s0 : Num.sqrt (2%:R : R) != 0 by rewrite sqrtr_eq0 -ltNge ltr0n.
  rewrite [iota 0 2]/= [iota 0 1]/= in h *.
  rewrite C62_value in h *; move=> h'; rewrite -h' mulfV // mulr1 in h.
  have q0 : 2%:R / Num.sqrt (2%:R : R) != 0 by rewrite mulf_neq0 ?invr_eq0 // pnatr_eq0.
  by move/eqP: h; rewrite -subr_eq0 opprK -mulr2n mulrn_eq0 (negbTE q0).
by move: e; rewrite /wme /=.
Qed.
Example C63_hypotheses_met : known_method "pod" = false.
Proof. by []. Qed.
Example C93_hypotheses_met : size [:: (1 : R); 1] = (2 * 1)%N /\ size [:: 0; 1]%N = (2 * 1)%N.
Proof. by []. Qed.

(** ** C94 *)
Example C94_hypotheses_met : [/\ ref_of exst (Some extv) = Some (NArr extv), sd_of exst None = Some (1 : R),
  n_sensors exst = Ok 2%N, n_ts exst = Ok 1%N & size (data extv) = (2 * 1)%N].
Proof. by []. Qed.
Example C94_value : (measurements_from_reference rsd rnd exst 7%N (Some extv) None (Some 0)).1.1 =
  with_meas (stored exst (Some extv) None)
    (NArr (Nd [:: 2; 1]%N [:: 2%:R + 0%:R * 1; 2%:R + 1%:R * 1])).
Proof. by []. Qed.
End StExamples.
