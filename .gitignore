*.aux
*.glob
*.vo
*.vok
*.vos
.*.aux
.Makefile.d
.lia.cache
.nia.cache
.nra.cache
rocq/Makefile
rocq/Makefile.conf
