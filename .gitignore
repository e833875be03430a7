*.vo
*.vok
*.vos
*.glob
.*.aux
.lia.cache
Makefile*
.Makefile.d
.coqdeps.d
.nia.cache
