*.vo
*.vos
*.vok
*.glob
*.aux
.*.aux
*.cache
Makefile*
.Makefile*
.coqdeps.d
.CoqMakefile*
__pycache__/
