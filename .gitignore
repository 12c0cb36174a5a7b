*.vo
*.vok
*.vos
*.glob
*.aux
Makefile*
.Makefile.d
.lia.cache
.nia.cache
*.cache
.*.cache
