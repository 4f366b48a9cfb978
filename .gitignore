rocq/Makefile
rocq/Makefile.conf
rocq/.Makefile.d
rocq/.lia.cache
rocq/.nia.cache
*.vo
*.vok
*.vos
*.glob
*.aux
.nra.cache
.lia.cache
.nia.cache
