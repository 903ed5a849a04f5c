*.vo
*.vok
*.vos
*.glob
*.aux
.*.aux
.lia.cache
.nia.cache
.Makefile.d
.coqdeps.d
rocq/Makefile
rocq/Makefile.conf
rocq/.Makefile.d
rocq/Makefile.d
.nra.cache
