{
('fenics','fenics_poisson_solve'): 'the boundary data only; the solver is an oracle',
}
