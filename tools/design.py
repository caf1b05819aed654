#!/usr/bin/env python3
"""Writes DESIGN.md: the text below, one line per property (from properties.jsonl, claims.py and
HOW), and the table of what is modelled (from the citations in the model files)."""
import ast, glob, json, os, re
H = os.path.dirname(os.path.abspath(__file__)); V = os.path.join(H, '..'); T = os.path.join(V, 'rocq/theories')
HOW = {}
for l in '''
C01 P = A (alpha C) A^T is invertible for full row rank and positive definite C; then algebra.
C02 P P^+ is the orthogonal projector on the range of A (Penrose equations); Pythagoras.
C03 mud - mean lies in the range of C A^T, orthogonal to ker A for C^-1; uniqueness from positive definiteness.
C04 pinv (c M) = c^-1 pinv M by uniqueness of the Moore-Penrose inverse.
C05 The residual is 0.
C06 Exact condition by comparing both closed forms; a concrete disagreement (2x1, correlated cov_o).
C07 A K = P P^-1 = 1.
C08 up = (C - K P K^T) + K R K^T; the first term is a Schur complement.
C09 Multiply out; uniqueness of inverses.
C10 Completion of squares with H = A^T R^-1 A + (alpha C)^-1 positive definite.
C11 Woodbury identity.
C12 Penrose equations.
C13 Both closed forms; uniqueness of the pseudo-inverse.
C14 Cancellation of the inverse.
C15 Symbolic execution of the four branches of solve; comparison of all attributes.
C16 Slices commute with the formulas; exact error cases.
C17 Closed form of compute_functionals for one observation; decomposition into squares; concrete counterexample to the naive claim.
C18 As C17.
C19 Symbolic execution for every value of terms.
C20 Decomposition of the functional into two squares.
C21 Case analysis on shapes.
C22 Exact acceptance condition through broadcasting; concrete surprising acceptances.
C23 Uniqueness of the minimiser, transported along the coordinate change.
C24 Penrose uniqueness under an invertible row operation.
C25 Sums over lists; entrywise.
C26 Sums of constant lists.
C27 Case analysis; a negative deviation with several rows is accepted (exact condition).
C28 Induction on the lists (zip truncates).
C29 Sums; permutation invariance by big-operator reindexing.
C30 Broadcasting of a column against a row, entrywise.
C31 Induction on the schedule.
C32 Orthogonal projection, Pythagoras, induction over the chain.
C33 Induction over epochs and steps.
C34 Every call with work to do raises TypeError (keyword not accepted); exact state left behind.
C35 Invariant over histories of calls: the first reference is answered for ever.
C36 First-argmax lemma over numbers with inf and nan; invariant over histories.
C37 Invariant over histories of returning calls; concrete stale estimate.
C38 Invariant over all histories, including failing calls.
C39 Induction over the list of weights; normalisation.
C40 argmax is invariant under positive scaling.
C41 Bounds of a weighted mean.
C42 argmax with numpy's nan rule.
C43 Case analysis on shapes; exact errors.
C44 Exact growth law by induction over plots.
C45 First-argmax lemma; product of likelihood columns.
C46 log oracle with monotone and multiplicative hypotheses; sums of logarithms.
C47 Sum is 0 or nan: exact condition; concrete usable posterior that is rejected in log mode.
C48 Invariant over histories; failed likelihood mixes modes (concrete).
C49 Minima and maxima of columns; padding.
C50 The mutated argument is part of the result (aliasing).
C51 Index arithmetic (division and remainder).
C52 Generator as a state machine.
C53 SVD equations as hypotheses; rank arguments.
C54 Exact formula (induction over the ranks).
C55 Algebra with an arbitrary inverse error function.
C56 Invariant over histories of setter calls; exact acceptance of domains and samples.
C57 Induction over entries; concrete stale reference.
C58 Invariant over histories.
C59 Index arithmetic of reshapes and masks.
C60 First argmin.
C61 Symbolic execution of the list of setter calls; counterexample for renamed fields.
C62 Entrywise formula of the QoI (divided by the root of the number of samples, not of data).
C63 Symbolic execution: UnboundLocalError, never a problem.
C64 Exact errors for every subset of the optional arguments.
C65 Non-interference: results depend only on the first num_obs data.
C66 Riemann sums of an arbitrary density on the product grid; which axis is summed out.
C67 Case analysis; columns standardised over a real closed field.
C68 Each wrapper unfolded against solve.
C69 Frame conditions over all methods.
C70 Telescoping Pythagoras over the chain.
C71 A fixed point of an epoch solves all equations and is the projection of the start (the direct solution).
C72 Equality case of C70.
C73 Orthogonal projections commute.
C74 Broadcasting of the m x m Gram table; exact shapes and errors.
C75 C05 applied to the solution.
C76 Loewner order; difference is a sum of congruences.
C77 Closed form for one observation.
C78 Two-point optimality argument.
C79 Precision matrices add; completion of squares.
C80 Congruence; Loewner order.
C81 Invertible row operation.
C82 Case analysis on what scipy evaluates to.
C83 Shapes of the constructor.
C84 State component of failing calls.
C85 Ratio is scaled by a positive constant; argmax.
C86 State component of the setters.
C87 Symbolic execution: which exception.
C88 Positive constant factor.
C89 Case analysis on shapes.
C90 State component of the setters.
C91 Symbolic execution.
C92 Entrywise formula relative to the decomposition.
C93 Entrywise formula (broadcasting a column).
C94 Entrywise formula over the generator machine.
C95 Symbolic execution.
C96 Entrywise formula of the grouped QoI.
C97 Line equation against the row; exact condition on the reference point.
C98 Symbolic execution.
C99 Index arithmetic.
C100 Induction over the chain.
C101 Standardisation is invariant under affine changes of units.
C102 Exact acceptance condition.
C103 Generator machine; row rank of the produced operator by construction.
C104 Nested best-fit sets and projections.
C105 Induction over dimensions, with C104.
C106 Truncated SVD as nested projections; monotone errors.
C107 Symbolic execution over the generator.
C108 Symbolic execution; shapes.
C109 C02, C25 combined.
C110 C07, C26 combined; scaling of covariances.
C111 Algebra with sin^2 + cos^2 = 1; invertibility of two non-parallel rows.
C112 Induction over the list of numbers of data.
C113 Sum of hat functions: exactly one term is active at a point.
C114 As C113, compared with the drawn polygon.
C115 Convexity of a Euclidean norm of an affine map; strict for three or more inner points.
C116 Symbolic execution; spread of the draws.
C117 Exact normal/uniform densities with an abstract exponential; argmax is the closest sample.
C118 Sum of squares of residuals; closest sample to the mean of the data.
C119 C117 and C118 pick the same sample.
C120 Induction over the list of numbers of data; state of the problems after plotting.
C121 Entrywise formulas; counting the times below the end; symbolic execution of the failing calls.
C122 Symbolic execution of load (C61) and of the noise (C94); composition with run_fenics.
C123 Columns by index arithmetic; exact errors by case analysis.
C124 Symbolic execution on top of solve.
C125 Reduction to C97; symbolic execution of the failing calls.
C126 Index arithmetic of the mesh (C51) and the closed forms of C17, C18, C74.
C127 Reduction to C59.
'''.strip().split('\n'):
    k, v = l.split(' ', 1); HOW[k] = v
extra = os.path.join(H, 'how.txt')
if os.path.exists(extra):
    for l in open(extra):
        if l.strip(): k, v = l.strip().split(' ', 1); HOW[k] = v

where = {}
for f in os.listdir(T):
    if f.endswith('.v'):
        for m in re.finditer(r"^\s*(?:Theorem|Lemma|Corollary)\s+([\w']+)", open(os.path.join(T, f)).read(), re.M): where.setdefault(m.group(1), f)
man = {c['property']: c for c in json.load(open(os.path.join(V, 'MANIFEST.json')))['claims']}
plan = ''
for l in open(os.path.join(V, 'properties.jsonl')):
    p = json.loads(l); c = man[p['id']]
    plan += '- **%s** %s. *%s* (`%s`%s)\n' % (p['id'], p['title'], HOW[p['id']], '`, `'.join(sorted({where[t] for t in c['theorems']})), '; ' + c['note'] if c['note'] else '')

cites = {}
for f in glob.glob(os.path.join(T, '*.v')):
    if 'Model' in f:
        for m in re.finditer(r'(\w+)\.py:((?:\d+(?:-\d+)?)(?:,\s*\d+(?:-\d+)?)*)', open(f).read()):
            for r in re.split(r',\s*', m.group(2)):
                a, *b = r.split('-'); cites.setdefault(m.group(1), []).append((int(a), int(b[0]) if b else int(a), os.path.basename(f)))
NOT = eval(open(os.path.join(H, 'notmodelled.py')).read())
PART = eval(open(os.path.join(H, 'partly.py')).read())
cov = '| file | function | lines | modelled in |\n| --- | --- | --- | --- |\n'
for p in sorted(glob.glob('/repo/src/mud/**/*.py', recursive=True)):
    n = os.path.basename(p)[:-3]
    def walk(b, pre=''):
        global cov
        for x in b:
            if isinstance(x, ast.ClassDef): walk(x.body, x.name + '.')
            if isinstance(x, ast.FunctionDef):
                c = sorted({k for a, b2, k in cites.get(n, []) if a <= x.end_lineno and b2 >= x.lineno})
                name = pre + x.name
                if (n, name) in NOT: c = ['not modelled: ' + NOT[(n, name)]]
                assert c, (n, name)
                if (n, name) in PART: c = c + ['(' + PART[(n, name)] + ')']
                cov += '| %s | %s | %d-%d | %s |\n' % (n, name, x.lineno, x.end_lineno, ' '.join(c))
    walk(ast.parse(open(p).read()).body)
s = open(os.path.join(H, 'design_head.md')).read()
open(os.path.join(V, 'DESIGN.md'), 'w').write(s.replace('@PLAN@', plan).replace('@COVERAGE@', cov))
