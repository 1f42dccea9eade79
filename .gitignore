*.vo
*.vok
*.vos
*.glob
.*.aux
Makefile
Makefile.conf
.Makefile.d
.lia.cache
.nia.cache
*.vio
.nra.cache
