*.vo
*.vos
*.vok
*.glob
*.aux
.*.aux
.lia.cache
.nia.cache
.nra.cache
.csdp.cache
rocq/Makefile
rocq/Makefile.conf
rocq/.Makefile.d
