*.aux
*.d
*.glob
*.vo
*.vok
*.vos
.*.aux
.Makefile.d
.coqdeps.d
.lia.cache
.nia.cache
.nra.cache
Makefile
Makefile.conf
