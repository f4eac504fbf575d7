.lia.cache
.nra.cache
.nia.cache
*.cache
