*.vo
*.vos
*.vok
*.glob
.*.aux
*.aux
.Makefile.d
Makefile
Makefile.conf
.lia.cache
.nia.cache
.nra.cache
.psatz.cache
