(** Concrete cases for C154 and C155. *)
From Coq Require Import String.
Set Warnings "-notation-overridden,-ambiguous-paths".
From mathcomp Require Import all_ssreflect all_algebra.
From Verif Require Import LatexModel LatexProps.
Set Implicit Arguments. Unset Strict Implicit. Unset Printing Implicit Defensive.

(** A user with two figures open and LaTeX switched on, on a machine without LaTeX: saving raises. *)
Definition user : world := W (fun k => if same k "text.usetex" then SBool true else SAny 5) [:: 7; 8] (fun f => same f "data.pkl").
Definition nolatex : oracles := O None (fun _ => None) (fun _ => None)
  (fun w => match rc w "text.usetex"%string with SBool true => (false, Some RuntimeErr) | _ => (true, None) end) (fun _ => None) (fun _ => 1).
Example C154_nolatex : let w := (import_plot nolatex user).1 in
  [/\ (import_plot nolatex user).2 = inr false, rc w "text.usetex"%string = SBool false, rc w "font.size"%string = SNum 16,
      rc w "lines.linewidth"%string = SAny 5 & figs w = [::]].
Proof. by split; vm_compute. Qed.
(** C154: the figures the user had open are closed by the import. *)
Theorem C154_open_figures_refuted : exists o w, figs w = [:: 7; 8] /\ (import_plot o w).2 = inr false /\ figs (import_plot o w).1 = [::].
Proof. by exists nolatex, user; split; last split; vm_compute. Qed.
(** With LaTeX; a user's file .test_fig.png is deleted. *)
Definition withlatex : oracles := O None (fun _ => None) (fun _ => None) (fun _ => (true, None)) (fun _ => None) (fun _ => 1).
Definition user2 : world := W (fun _ => SAny 5) [::] (fun f => same f ".test_fig.png").
Theorem C154_users_file_refuted : exists_ user2 test_fig /\ (import_plot withlatex user2).2 = inr true /\
  exists_ (import_plot withlatex user2).1 test_fig = false.
Proof. by split; last split; vm_compute. Qed.
(** Another exception ends the import; the settings are the user's again. *)
Definition denied : oracles := O None (fun _ => None) (fun _ => None) (fun _ => (false, Some OtherError)) (fun _ => None) (fun _ => 1).
Example C154_denied : (import_plot denied user).2 = inl OtherError /\ rc (import_plot denied user).1 "font.size"%string = SAny 5.
Proof. by split; vm_compute. Qed.
(** The hypotheses of C154_outcome. *)
Example C154_outcome_met : exists w1, testing nolatex user w1 /\ o_cwd nolatex = None /\
  (forall u v, rc u =1 rc v -> figs u = figs v -> exists_ u =1 exists_ v ->
     [/\ o_plot1 nolatex u = o_plot1 nolatex v, o_plot2 nolatex u = o_plot2 nolatex v, o_savefig nolatex u = o_savefig nolatex v & o_unlink nolatex u = o_unlink nolatex v]).
Proof.
exists (W (fun k => if same k "text.usetex" then SBool true else rc user k) [:: 7; 8] (exists_ user)).
by split; [split | split=> // u v h _ _; split=> //=; rewrite h].
Qed.

(** The group: a directory made in the working directory, then a seed; a missing parent. *)
Definition fs0 (p : string) : option node := if same p "." then Some Dir else if same p "notes" then Some File else None.
Definition par (p : string) : string := if same p "a/b" then "a"%string else "."%string.
Definition reseed0 (q : int) : lexn + nat := if q is Posz k then inr k else inl ValueErr.
Example C155_met : (group par reseed0 false (Some (Posz 21)) (Some "figs"%string) 500 fs0 3).2 =
    inr (CO false (Some (Posz 21)) (Some "figs"%string) 500) /\
  (group par reseed0 false (Some (Posz 21)) (Some "figs"%string) 500 fs0 3).1.2 = 21%N /\
  (group par reseed0 false (Some (Posz 21)) (Some "figs"%string) 500 fs0 3).1.1 "figs"%string = Some Dir.
Proof. by split; last split; vm_compute. Qed.
Example C155_no_parent : (group par reseed0 false (Some (Posz 21)) (Some "a/b"%string) 500 fs0 3).2 = inl FileNotFoundErr /\
  (group par reseed0 false (Some (Posz 21)) (Some "notes"%string) 500 fs0 3).2 = inl FileExistsErr /\
  (group par reseed0 false (Some (Posz 21)) (Some "notes"%string) 500 fs0 3).1.2 = 3%N.
Proof. by split; last split; vm_compute. Qed.
(** A refused seed leaves the directory behind. *)
Example C155_bad_seed_met : (group par reseed0 false (Some (Negz 0)) (Some "figs"%string) 500 fs0 3).2 = inl ValueErr /\
  (group par reseed0 false (Some (Negz 0)) (Some "figs"%string) 500 fs0 3).1.1 "figs"%string = Some Dir.
Proof. by split; vm_compute. Qed.
