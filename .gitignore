*.vo
*.vok
*.vos
*.glob
.*.aux
*.cache
.lia.cache
.nra.cache
rocq/Makefile
rocq/Makefile.conf
rocq/.Makefile.d
