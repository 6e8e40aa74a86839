*.aux
*.glob
*.vo
*.vok
*.vos
.*.aux
.lia.cache
.nia.cache
rocq/.Makefile.d
rocq/.coqdeps.d
rocq/Makefile
rocq/Makefile.conf
.nra.cache
