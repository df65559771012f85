Makefile*
*.vo
*.vok
*.vos
*.glob
*.aux
.*.aux
.Makefile*
.lia.cache
.nia.cache
.coqdeps.d
CoqMakefile*
