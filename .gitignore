*.vo
*.vok
*.vos
*.glob
*.aux
.*.aux
.lia.cache
.nia.cache
.coqdeps.d
rocq/Makefile
rocq/Makefile.conf
rocq/.Makefile.d
.nra.cache
