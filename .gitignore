*.vo
*.vok
*.vos
*.glob
*.aux
.*.aux
rocq/Makefile
rocq/Makefile.conf
rocq/.Makefile.d
rocq/.lia.cache
.lia.cache
rocq/.nia.cache
.nia.cache
.nra.cache
