C128 Symbolic execution; index arithmetic of row-major draws.
C129 12500 - 7^7 x^2 (1-x)^5 = (7x-2)^2 q(x) with q positive on [0,1] (Bernstein form); C113 near 1.
C130 Symbolic execution of the list of figures; C124-C126 for their content; closed forms for the sum map.
C131 Symbolic execution of plot_param_space twice per axes (5% twice is 10.5%); induction over N_vals; stable sorting; C92 for the problem; decimal notation is injective.
C132 Symbolic execution; slices of the order; a concrete run for the dependence on the generator.
C133 Symbolic execution; induction over the parameters (the n-th widening is ((11/10)^n - 1)/2); C92 for the problem, C127 for the curves.
C134 Decimal notation is injective and has no underscore; closed forms of the loops.
C135 Induction over the records.
C136 Unfolding the commands; C131 for the trials; sorting is determined by the multiset.
C137 Induction over the windows with the invariant that only the stored components change; C133 and C134 for one window.
C138 Decimal notation is injective and has no underscore; a finite map of files; case analysis of the runs.
C139 C66 for each curve on the grid of the range; case analysis of the options.
C140 As C139; estimates are idempotent (C90); sums over slices of the grid (C66); shapes that do not broadcast.
C141 The state after solving (C116, C120), C139 and C140 for the curves; induction over the list; decimal notation is injective.
C142 The singular values of a positive semidefinite matrix are its eigenvalues; Courant-Fischer by counting dimensions, with the subspaces that C112 gives; arithmetic of rounding.
C143 The lists of artists computed from the arrays of C105 and C106.
C144 The run as a list of stages with the generator threaded through; file names by the theorems of each figure (C130, C141, C142, C143); the disk as a dictionary, last write wins; C144_total from C120_returns and C141_figures.
C145 Induction over the list of N with the generator; each command unfolded after restarting the generator.
C146 From the theorems about get_errors (C35).
C147 Induction over the vectors; pyplot as a list of Axes with a current one.
C148 The list of steps cut at the first exception; each window alone by C133 (a solved problem does not change the next); decimal notation is injective.
C149 The parts (C144, C138, C148) composed with both generators and the disk threaded through; what a seed fixes by case analysis of each part.
C150 The call unfolded with the range chosen first; each curve by C66 (the curve drawn for a density); metamorphic for the weights.
C151 order_free says what is assumed of the distributions; a simulation between the problem and the reordered one, call by call; the estimate from the specification of argmax
C152 as C151: a simulation between the problem and the reordered one; argmax by its specification
C153 C36, C37 and C41 (the exact estimate and ratio of a history) with IEEE rules for zero times a number or infinity
C154 the try/except/finally unfolded step by step; dictionaries of settings as lists, looked up from the end
C155 case analysis of mkdir and the seed
C156 pseudo-inverse, inverse and every step of solve transported along orthogonal matrices; permutation matrices are orthogonal
C157 sums over a permuted index list; vstack row by row; then C156 with the identity on parameters
C158 the residuals of C62 summed over permuted index lists; C151 for the constructor
C159 the closed forms of the four solutions (gain times residual) rearranged
C160 the closed forms with c cov_i and c cov_o; pseudo-inverse and inverse of a multiple
C161 simulation between the problem and the converted one; minima, maxima and padding commute with increasing affine maps, the two factors of the observables cancel in the ratio
C162 simulation as for C161; the factors of prior and likelihood leave the sum nonzero and the first maximum in place
C163 a run written as a sequence of steps, each of which commutes with concatenation; argmax of a concatenation
C164 as C163; the mean of a concatenation
