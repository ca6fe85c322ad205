*.vo
*.vok
*.vos
*.glob
*.aux
.*.aux
.lia.cache
.nia.cache
Makefile.conf
.Makefile.d
.nra.cache
.lia.cache
