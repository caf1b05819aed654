{
('cli','cli'): 'empty command group',
}
