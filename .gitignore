*.vo
*.vos
*.vok
*.glob
*.aux
.*.aux
.lia.cache
.nia.cache
.nra.cache
.lra.cache
.csdp.cache
Makefile
Makefile.conf
.Makefile.d
