.lia.cache
.nia.cache
*.vo
*.vok
*.vos
*.glob
*.aux
Makefile*
.Makefile*
.CoqMakefile*
