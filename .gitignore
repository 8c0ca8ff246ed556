*.vo
*.vos
*.vok
*.glob
*.aux
.*.aux
.lia.cache
.nia.cache
*.d
rocq/Makefile
rocq/Makefile.conf
